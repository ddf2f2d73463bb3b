(** * Where iteration leaves out keys: specification vocabulary. *)
From Verif Require Import Base SurfModel SurfSpec SurfSuffix3 SurfIter SurfIterSpec.

(** Prev at the key with index [i] ends the iteration: there is no earlier key; or the earlier
    key is a prefix of all keys; or it branches off the common prefix [p] of all keys with byte 0
    and the key at [i] does not; or (with two dense levels) the first key is a prefix of all, all
    others continue it with byte 0, and the second key is a prefix of those. *)
Definition prev_stops (dense : nat) (keys : list bytes) (i : nat) : Prop :=
  i = 0 \/
  (0 < dense /\ forall k, In k keys -> is_prefix (nth (i - 1) keys []) k) \/
  (0 < dense /\ exists p, (forall k, In k keys -> is_prefix p k) /\ is_prefix (p ++ [0]) (nth (i - 1) keys []) /\ ~ is_prefix (p ++ [0]) (nth i keys [])) \/
  (1 < dense /\ i = 2 /\ forall k, In k (tl keys) -> is_prefix (nth 0 keys []) k /\ is_prefix (nth 0 keys [] ++ [0]) k /\ is_prefix (nth 1 keys []) k).
(** Prev at [i] panics. *)
Definition prev_panics (dense : nat) (keys : list bytes) (i : nat) : Prop := i = 0 /\ 0 < dense /\ prefix_of_all keys.

(** The cursor of [moved], with what the code makes of SeekToFirst and Prev. *)
Definition moved_all (r dense : nat) (keys : list bytes) (cur : option nat) (c : icall) (cur' : option nat) : Prop :=
  match c, cur with
  | IFirst, _ => (prefix_of_all keys /\ cur' = Some 1) \/ (~ prefix_of_all keys /\ cur' = Some 0)
  | IPrev, Some i => (prev_stops dense keys i /\ cur' = None) \/ (~ prev_stops dense keys i /\ cur' = Some (i - 1))
  | _, _ => moved r keys cur c cur'
  end.
Definition call_panics (dense : nat) (keys : list bytes) (cur : option nat) (c : icall) : Prop :=
  match c, cur with IPrev, Some i => prev_panics dense keys i | _, _ => False end.
(** After each call the iterator is where the cursor is, up to the first call that panics. *)
Fixpoint follows_all (vs r : nat) (keys vals : list bytes) (s : surf) (it : iter) (cur : option nat) (cs : list icall) : Prop :=
  shows vs keys vals s it cur /\
  match cs with
  | [] => True
  | c :: cs =>
      (call_panics (ld_height (s_ld s)) keys cur c /\ icall_run s it c = Panic) \/
      (~ call_panics (ld_height (s_ld s)) keys cur c /\
       exists it' cur', icall_run s it c = Ok it' /\ moved_all r (ld_height (s_ld s)) keys cur c cur' /\ follows_all vs r keys vals s it' cur' cs)
  end.
(** The calls covered: Seek queries as before; SeekToFirst and SeekToLast with a dense level. *)
Definition call_ok_all (dense : nat) (keys : list bytes) (c : icall) : Prop :=
  match c with
  | ISeek q => wf_bytes q = true /\ path_ok dense keys q
  | IFirst | ILast => 0 < dense
  | INext | IPrev => True
  end.
