(** * SurfWordIterSpec: statements on the iterators with uint32 arithmetic. *)
From Verif Require Import Base SurfModel SurfIter SurfIterSpec SurfWordIter.

(** A call on an iterator: the iterator after it, and the flag returned by Seek. *)
Definition call_out (s : surf) (it : iter) (c : icall) : res (iter * bool) :=
  match c with ISeek q => it_seek s it q | _ => it <- icall_run s it c ;; Ok (it, false) end.
Definition call_out32 (s : surf) (it : iter) (c : icall) : res (iter * bool) :=
  match c with
  | ISeek q => it_seek32 s it q
  | IFirst => it <- it_seekToFirst32 s it ;; Ok (it, false)
  | ILast => it <- it_seekToLast32 s it ;; Ok (it, false)
  | INext => it <- it_next32 s it ;; Ok (it, false)
  | IPrev => it <- it_prev32 s it ;; Ok (it, false)
  end.

(** What the user sees of an iterator: Key() and Value() while Valid() is true. *)
Definition look (s : surf) (it : iter) : res (option (bytes * bytes)) :=
  if it_valid it then k <- it_key it ;; v <- it_value s it ;; Ok (Some (k, v)) else Ok None.
Definition look32 (s : surf) (it : iter) : res (option (bytes * bytes)) :=
  if it_valid it then k <- it_key it ;; v <- it_value32 s it ;; Ok (Some (k, v)) else Ok None.

(** What the user sees after each of the calls. *)
Fixpoint trace (s : surf) (it : iter) (cs : list icall) : res (list (bool * option (bytes * bytes))) :=
  match cs with
  | [] => Ok []
  | c :: cs => ' (it, b) <- call_out s it c ;; o <- look s it ;; l <- trace s it cs ;; Ok ((b, o) :: l)
  end.
Fixpoint trace32 (s : surf) (it : iter) (cs : list icall) : res (list (bool * option (bytes * bytes))) :=
  match cs with
  | [] => Ok []
  | c :: cs => ' (it, b) <- call_out32 s it c ;; o <- look32 s it ;; l <- trace32 s it cs ;; Ok ((b, o) :: l)
  end.

(** As [visits]. *)
Inductive visits32 (s : surf) (step : iter -> res iter) : iter -> list (bytes * bytes) -> Prop :=
| visits32_end it : it_valid it = false -> visits32 s step it []
| visits32_step it k v it' l : it_valid it = true -> it_key it = Ok k -> it_value32 s it = Ok v ->
    step it = Ok it' -> visits32 s step it' l -> visits32 s step it ((k, v) :: l).

(** Queries are strings of bytes, shorter than 2^29. *)
Definition query_ok (q : bytes) : Prop := wf_bytes q = true /\ (N.of_nat (length q) < 536870912)%N.
Definition queries_ok (cs : list icall) : Prop := Forall (fun c => match c with ISeek q => query_ok q | _ => True end) cs.

(** Limits under which no counter wraps: fewer than 2^23 keys, each shorter than 2^16 - 1 bytes,
    and fewer than 2^32 bytes of values. *)
Record small_input (vs : nat) (keys : list bytes) : Prop := {
  si_keys : (N.of_nat (length keys) < 8388608)%N;
  si_length : Forall (fun k => (N.of_nat (length k) < 65535)%N) keys;
  si_values : (N.of_nat (length keys * vs) < 4294967296)%N }.
