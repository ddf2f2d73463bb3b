(** * Specification vocabulary for keys handed out by the iterators, with the buffers modelled. *)
From Verif Require Import Base SurfModel SurfIter SurfIterSpec SurfKeyMem.

(** What a program does: move the iterator, ask for the key and read it at once, store a byte in
    the [j]-th key it was given, or append to it. *)
Inductive act := Move (c : icall) | ReadKey | SetByte (j i : nat) (x : byte) | Extend (j : nat) (l : bytes).

Definition mcall_run (grow : nat -> nat -> nat) (s : surf) (it : miter) (c : icall) : res miter :=
  match c with
  | ISeek q => ' (it, _) <- mi_seek grow s it q ;; Ok it
  | IFirst => mi_seekToFirst grow s it
  | ILast => mi_seekToLast grow s it
  | INext => mi_next grow s it
  | IPrev => mi_prev grow s it
  end.
Fixpoint mcalls_run (grow : nat -> nat -> nat) (s : surf) (it : miter) (cs : list icall) : res miter :=
  match cs with [] => Ok it | c :: cs => it <- mcall_run grow s it c ;; mcalls_run grow s it cs end.

(** Running a program on the iterator with buffers: the final iterator, the keys given out, and the
    bytes read. *)
Fixpoint mexec (grow : nat -> nat -> nat) (s : surf) (it : miter) (refs : list keyref) (acts : list act) : res (miter * list keyref * list bytes) :=
  match acts with
  | [] => Ok (it, refs, [])
  | Move c :: acts => it <- mcall_run grow s it c ;; mexec grow s it refs acts
  | ReadKey :: acts =>
      ' (it, k) <- mi_key grow it ;;
      ' (e, out) <- mexec grow s it (refs ++ [k]) acts ;;
      Ok (e, key_bytes it k :: out)
  | SetByte j i x :: acts => k <- idx refs j ;; it <- key_set it k i x ;; mexec grow s it refs acts
  | Extend j l :: acts => k <- idx refs j ;; mexec grow s (key_append it k l) refs acts
  end.
(** The bytes read when every key is a fresh copy (SurfIter.v), so that the caller's stores and
    appends cannot matter. *)
Fixpoint lexec (s : surf) (it : iter) (acts : list act) : res (list bytes) :=
  match acts with
  | [] => Ok []
  | Move c :: acts => it <- icall_run s it c ;; lexec s it acts
  | ReadKey :: acts => k <- it_key it ;; out <- lexec s it acts ;; Ok (k :: out)
  | _ :: acts => lexec s it acts
  end.
Definition reads_only (a : act) : Prop := match a with Move _ | ReadKey => True | _ => False end.

(** As [visits], reading each key as soon as Key returned it. *)
Inductive mvisits (grow : nat -> nat -> nat) (s : surf) (step : miter -> res miter) : miter -> list (bytes * bytes) -> Prop :=
| mvisits_end it : mi_valid it = false -> mvisits grow s step it []
| mvisits_step it it1 k v it' l : mi_valid it = true -> mi_key grow it = Ok (it1, k) -> mi_value s it1 = Ok v ->
    step it1 = Ok it' -> mvisits grow s step it' l -> mvisits grow s step it ((key_bytes it1 k, v) :: l).

(** A store at position [i] or later of the array behind [k] misses the bytes that the dense part
    of the iterator is using. *)
Definition spares (it : miter) (k : keyref) (i : nat) : bool :=
  match k_owner k with
  | OfIterator => true
  | OfDense => negb (Nat.eqb (k_arr k) (b_cur (md_key (mi_dense it)))) || Nat.leb (b_len (md_key (mi_dense it))) i
  end.
(** Appending [l] does not fit in the array behind [k], so that append copies the key elsewhere. *)
Definition outgrows (it : miter) (k : keyref) (l : bytes) : bool :=
  Nat.ltb (length (nth (k_arr k) (b_mem (k_buf it k)) [])) (k_len k + length l).
(** All stores of the program miss those bytes, or are appends that copy, and go to keys it was given. *)
Fixpoint careful (grow : nat -> nat -> nat) (s : surf) (it : miter) (refs : list keyref) (acts : list act) : bool :=
  match acts with
  | [] => true
  | Move c :: acts => match mcall_run grow s it c with Ok it' => careful grow s it' refs acts | _ => true end
  | ReadKey :: acts => match mi_key grow it with Ok (it', k) => careful grow s it' (refs ++ [k]) acts | _ => true end
  | SetByte j i x :: acts =>
      match nth_error refs j with
      | Some k => Nat.ltb i (k_len k) && spares it k i && careful grow s (k_update it k (fun b => b_store b (k_arr k) i [x])) refs acts
      | None => false
      end
  | Extend j l :: acts =>
      match nth_error refs j with
      | Some k => (spares it k (k_len k) || outgrows it k l) && careful grow s (key_append it k l) refs acts
      | None => false
      end
  end.
