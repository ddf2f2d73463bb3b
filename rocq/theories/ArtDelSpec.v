(** * ArtDelSpec: which absent keys Delete cannot tell from a stored one before it reaches a leaf.

    Only the set of stored keys is mentioned, as answered by Get. *)
From Verif Require Import Base BitsModel VecModel ArtNode ArtModel ArtSpec.

Definition has_key (m : mem) (k : bytes) : Prop := valid k /\ exists v, returns (fun f => Get f m k) (Some v).
(** [w] is exactly what two stored keys have in common. *)
Definition split_point (m : mem) (w : bytes) : Prop := exists k1 k2, has_key m k1 /\ has_key m k2 /\ k1 <> k2 /\
  is_prefix w k1 /\ is_prefix w k2 /\ ~ exists b, is_prefix (w ++ [b]) k1 /\ is_prefix (w ++ [b]) k2.
Definition fork (m : mem) (w : bytes) : Prop := w = [] \/ split_point m w.
(** Byte [i] of the stored key [k] is among the nine bytes that follow one of its forks. *)
Definition compared (m : mem) (k : bytes) (i : nat) : Prop := exists d, d <= i <= d + 8 /\ fork m (firstn d k).
(** [k] agrees with the stored key [k'] on all compared bytes up to the byte after the last fork of [k']. *)
Definition lookalike (m : mem) (k k' : bytes) : Prop := has_key m k' /\ exists j, j < length k /\ j < length k' /\
  fork m (firstn j k') /\ (forall k1, has_key m k1 -> is_prefix (firstn (S j) k') k1 -> k1 = k') /\
  forall i, i <= j -> compared m k' i -> nth_error k i = nth_error k' i.
