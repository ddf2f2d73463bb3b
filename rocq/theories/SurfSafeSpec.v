(** * Iterator calls in any order: specification vocabulary. *)
From Verif Require Import Base SurfModel SurfSpec SurfIter SurfIterSpec.

(** The call sequences covered. Queries are byte strings. On a filter without dense levels,
    SeekToFirst and SeekToLast do not place the iterator ([placed] is false), and Next and Prev
    are only called after a Seek. *)
Fixpoint allowed (dense : nat) (placed : bool) (cs : list icall) : Prop :=
  match cs with
  | [] => True
  | ISeek q :: cs => wf_bytes q = true /\ allowed dense true cs
  | IFirst :: cs | ILast :: cs => allowed dense (0 <? dense) cs
  | INext :: cs | IPrev :: cs => placed = true /\ allowed dense placed cs
  end.

(** The iterator shows a stored key that is a proper prefix of all the others. *)
Definition shows_common (keys : list bytes) (it : iter) : Prop :=
  it_valid it = true /\ 2 <= length keys /\ exists k, it_key it = Ok k /\ In k keys /\ forall k', In k' keys -> is_prefix k k'.
(** The call panics: Prev there. *)
Definition bad_call (s : surf) (keys : list bytes) (it : iter) (c : icall) : Prop :=
  c = IPrev /\ 0 < ld_height (s_ld s) /\ shows_common keys it.

(** While the iterator is valid Key and Value return; and every call returns, unless it is a
    bad one, which panics. *)
Fixpoint returns (s : surf) (keys : list bytes) (it : iter) (cs : list icall) : Prop :=
  (it_valid it = true -> exists k v, it_key it = Ok k /\ it_value s it = Ok v) /\
  match cs with
  | [] => True
  | c :: cs => (bad_call s keys it c /\ icall_run s it c = Panic) \/
               (~ bad_call s keys it c /\ exists it', icall_run s it c = Ok it' /\ returns s keys it' cs)
  end.
