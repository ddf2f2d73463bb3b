(** * What a writer and a filter that is filled again should see: definitions for C52-C54. *)
From Verif Require Import Base BitsModel VecModel SurfModel SurfIter.

(** The Write calls of a serialization that consists of the given pieces: one call per
    piece, in order, until one of them fails. *)
Fixpoint feed {W Err} (write : W -> bytes -> W * option Err) (pieces : list bytes) (w : W) : W * option Err :=
  match pieces with
  | [] => (w, None)
  | p :: r => let (w', e) := write w p in
      match e with None => feed write r w' | Some _ => (w', e) end
  end.

(** A writer that takes [n] bytes and fails when it is given more. *)
Definition limited (n : nat) (got p : bytes) : bytes * option unit :=
  if Nat.leb (length got + length p) n then (got ++ p, None) else (got ++ firstn (n - length got) p, Some tt).

(** Two filters between which no call tells: Get, HasOverlap and every iterator call. *)
Definition same_answers (fp : bytes -> N) (s s' : surf) : Prop :=
  (forall k, surf_get fp s k = surf_get fp s' k) /\
  (forall a b i, hasOverlap s a b i = hasOverlap s' a b i) /\
  newIterator s = newIterator s' /\
  (forall it, it_next s it = it_next s' it) /\ (forall it, it_prev s it = it_prev s' it) /\
  (forall it k, it_seek s it k = it_seek s' it k) /\
  (forall it, it_seekToFirst s it = it_seekToFirst s' it) /\ (forall it, it_seekToLast s it = it_seekToLast s' it) /\
  (forall it, it_value s it = it_value s' it).

(** The words in which a filter keeps suffixes, also those that no count covers. *)
Definition suffix_words (s : surf) : list N := bv_bits (xv_bv (ld_suffixes (s_ld s))) ++ bv_bits (xv_bv (ls_suffixes (s_ls s))).
