(** * SuRF, a second Build on the same builder: properties C23 and C56. *)
From Verif Require Import Base VecProofs2 SurfModel SurfSpec SurfTop SurfReuse Props_Surf.

(** [s2] is what a second Build returned on the builder that built [s1] (two lists of at
    least two keys, the bytes of which fit a 32-bit count together). *)
Definition rebuilt (fp : bytes -> N) (vs h r : nat) (keys1 vals1 keys2 vals2 : list bytes) (hint1 hint2 : Z) (s1 : surf) (x : res (surf * builder)) : Prop :=
  valid_input vs h r keys1 vals1 /\ valid_input vs h r keys2 vals2 /\ 2 <= length keys1 /\ 2 <= length keys2 /\
  (N.of_nat (length (concat keys1) + length (concat keys2)) < 4294967296)%N /\
  exists f1 f2 b1, Forall (fun k => length k < f1) keys1 /\ Forall (fun k => length k < f2) keys2 /\
    surf_build fp f1 (newBuilder vs h r) keys1 vals1 hint1 = Ok (s1, b1) /\ surf_build fp f2 b1 keys2 vals2 hint2 = x.

(** Where at most one key of the first list begins with the first byte of the query, the
    second filter answers as the first one does. *)
Theorem C56_second_answers : forall fp vs h r keys1 vals1 keys2 vals2 hint1 hint2 s1 s2 b2,
  rebuilt fp vs h r keys1 vals1 keys2 vals2 hint1 hint2 s1 (Ok (s2, b2)) ->
  forall q, wf_bytes q = true -> q <> [] ->
  (forall k k', In k keys1 -> In k' keys1 -> hd_error k = hd_error q -> hd_error k' = hd_error q -> k = k') ->
  surf_get fp s2 q = surf_get fp s1 q.
Proof.
  intros fp vs h r keys1 vals1 keys2 vals2 hint1 hint2 s1 s2 b2 (V1 & V2 & L1 & L2 & FT & f1 & f2 & b1 & F1 & F2 & B1 & B2) q Hq NQ LO.
  exact (second_get fp vs h r keys1 vals1 keys2 vals2 hint1 hint2 f1 f2 s1 b1 V1 V2 F1 F2 L1 L2 FT B1 s2 b2 q B2 Hq NQ LO).
Qed.
Print Assumptions C56_second_answers.

(** The keys of the second list whose first byte begins no key of the first list are lost. *)
Theorem C56_second_loses : forall fp vs h r keys1 vals1 keys2 vals2 hint1 hint2 s1 s2 b2,
  rebuilt fp vs h r keys1 vals1 keys2 vals2 hint1 hint2 s1 (Ok (s2, b2)) ->
  forall k, In k keys2 -> k <> [] -> (forall k1, In k1 keys1 -> hd_error k1 <> hd_error k) -> surf_get fp s2 k = Ok None.
Proof.
  intros fp vs h r keys1 vals1 keys2 vals2 hint1 hint2 s1 s2 b2 (V1 & V2 & L1 & L2 & FT & f1 & f2 & b1 & F1 & F2 & B1 & B2) q Hin NQ HN.
  assert (Hq : wf_bytes q = true) by (pose proof (v_byte _ _ _ _ _ V2) as B; rewrite Forall_forall in B; now apply B).
  exact (second_lost fp vs h r keys1 vals1 keys2 vals2 hint1 hint2 f1 f2 s1 b1 V1 V2 F1 F2 L1 L2 FT B1 s2 b2 q B2 Hq NQ HN).
Qed.
Print Assumptions C56_second_loses.

(** The second Build returns if the first filter has no dense level. *)
Theorem C56_second_returns : forall fp vs h r keys1 vals1 keys2 vals2 hint1 hint2 s1 x,
  rebuilt fp vs h r keys1 vals1 keys2 vals2 hint1 hint2 s1 x -> ld_height (s_ld s1) = 0 ->
  exists s2 b2, x = Ok (s2, b2).
Proof.
  intros fp vs h r keys1 vals1 keys2 vals2 hint1 hint2 s1 x (V1 & V2 & L1 & L2 & FT & f1 & f2 & b1 & F1 & F2 & B1 & <-) Z.
  exact (second_returns fp vs h r keys1 vals1 keys2 vals2 hint1 hint2 f1 f2 s1 b1 V1 V2 F1 F2 L1 L2 FT B1 Z).
Qed.
Print Assumptions C56_second_returns.

(** After a first filter with a dense level it panics, or returns a filter without one. *)
Theorem C56_second_no_dense : forall fp vs h r keys1 vals1 keys2 vals2 hint1 hint2 s1 x,
  rebuilt fp vs h r keys1 vals1 keys2 vals2 hint1 hint2 s1 x -> 0 < ld_height (s_ld s1) ->
  x = Panic \/ exists s2 b2, x = Ok (s2, b2) /\ ld_height (s_ld s2) = 0.
Proof.
  intros fp vs h r keys1 vals1 keys2 vals2 hint1 hint2 s1 x (V1 & V2 & L1 & L2 & FT & f1 & f2 & b1 & F1 & F2 & B1 & <-) Z.
  exact (second_dense fp vs h r keys1 vals1 keys2 vals2 hint1 hint2 f1 f2 s1 b1 V1 V2 F1 F2 L1 L2 FT B1 Z).
Qed.
Print Assumptions C56_second_no_dense.

(** ** Examples: the hypotheses of the four theorems are met, and both outcomes of the last one occur. *)
Definition ra : list bytes := [[1]; [2; 7]; [2; 8]].
Definition rb : list bytes := [[3]; [4; 5]; [4; 6]].

Lemma rebuilt_ex k1 k2 hint1 hint2 s1 b1 x :
  validb_input 1 0 0 k1 k1 && validb_input 1 0 0 k2 k2 && Nat.leb 2 (length k1) && Nat.leb 2 (length k2) &&
  N.ltb (N.of_nat (length (concat k1) + length (concat k2))) 4294967296 && forallb (fun k => Nat.ltb (length k) 8) k1 && forallb (fun k => Nat.ltb (length k) 8) k2 = true ->
  surf_build ex_fp 8 (newBuilder 1 0 0) k1 k1 hint1 = Ok (s1, b1) -> surf_build ex_fp 8 b1 k2 k2 hint2 = x ->
  rebuilt ex_fp 1 0 0 k1 k1 k2 k2 hint1 hint2 s1 x.
Proof.
  rewrite !andb_true_iff, !forallb_forall, !Nat.leb_le, N.ltb_lt. intros ((((((H1 & H2) & H3) & H4) & H5) & H6) & H7) B1 B2.
  split; [now apply validb_input_ok|]. split; [now apply validb_input_ok|]. split; [exact H3|]. split; [exact H4|]. split; [exact H5|].
  exists 8, 8, b1. split; [apply Forall_forall; intros k Hk; now apply Nat.ltb_lt, H6|]. split; [apply Forall_forall; intros k Hk; now apply Nat.ltb_lt, H7|]. auto.
Qed.

(** No dense level: [1] is found as before, [3] of the second list is not. *)
Example C56_example_sparse : exists s1 s2 b2, rebuilt ex_fp 1 0 0 ra ra rb rb 0 0 s1 (Ok (s2, b2)) /\ ld_height (s_ld s1) = 0 /\
  surf_get ex_fp s2 [1] = Ok (Some [1]) /\ surf_get ex_fp s2 [3] = Ok None.
Proof.
  assert (X : match surf_build ex_fp 8 (newBuilder 1 0 0) ra ra 0 with
    | Ok (s1, b1) => match surf_build ex_fp 8 b1 rb rb 0 with Ok (s2, b2) => ld_height (s_ld s1) = 0 /\ surf_get ex_fp s2 [1] = Ok (Some [1]) /\ surf_get ex_fp s2 [3] = Ok None | _ => False end
    | _ => False end) by (vm_compute; auto).
  destruct (surf_build ex_fp 8 (newBuilder 1 0 0) ra ra 0) as [[s1 b1]| |] eqn:E1; [|destruct X|destruct X].
  destruct (surf_build ex_fp 8 b1 rb rb 0) as [[s2 b2]| |] eqn:E2; [|destruct X|destruct X].
  exists s1, s2, b2. split; [|exact X]. exact (rebuilt_ex ra rb 0 0 s1 b1 _ eq_refl E1 E2).
Qed.

Example C56_example_dense : exists s1, rebuilt ex_fp 1 0 0 ra ra rb rb 10000 10000 s1 Panic /\ 0 < ld_height (s_ld s1) /\
  exists s2 b2, rebuilt ex_fp 1 0 0 ra ra rb rb 10000 0 s1 (Ok (s2, b2)).
Proof.
  assert (X : match surf_build ex_fp 8 (newBuilder 1 0 0) ra ra 10000 with
    | Ok (s1, b1) => match surf_build ex_fp 8 b1 rb rb 10000, surf_build ex_fp 8 b1 rb rb 0 with Panic, Ok _ => 0 < ld_height (s_ld s1) | _, _ => False end
    | _ => False end) by (vm_compute; auto).
  destruct (surf_build ex_fp 8 (newBuilder 1 0 0) ra ra 10000) as [[s1 b1]| |] eqn:E1; [|destruct X|destruct X].
  destruct (surf_build ex_fp 8 b1 rb rb 10000) as [|  |] eqn:E2; [destruct X| |destruct X].
  destruct (surf_build ex_fp 8 b1 rb rb 0) as [[s2 b2]| |] eqn:E3; [|destruct X|destruct X].
  exists s1. split; [exact (rebuilt_ex ra rb 10000 10000 s1 b1 _ eq_refl E1 E2)|]. split; [exact X|].
  exists s2, b2. exact (rebuilt_ex ra rb 10000 0 s1 b1 _ eq_refl E1 E3).
Qed.

(** C23 is also false in that Get on the second filter can panic. *)
Theorem C23_second_get_refuted : exists fp vs h r keys1 vals1 keys2 vals2 hint1 hint2 s1 s2 b2 q,
  rebuilt fp vs h r keys1 vals1 keys2 vals2 hint1 hint2 s1 (Ok (s2, b2)) /\ wf_bytes q = true /\ surf_get fp s2 q = Panic.
Proof.
  assert (X : match surf_build ex_fp 8 (newBuilder 1 0 0) ra ra 0 with
    | Ok (s1, b1) => match surf_build ex_fp 8 b1 rb rb 10000 with Ok (s2, b2) => surf_get ex_fp s2 [2; 7] = Panic | _ => False end
    | _ => False end) by (vm_compute; auto).
  destruct (surf_build ex_fp 8 (newBuilder 1 0 0) ra ra 0) as [[s1 b1]| |] eqn:E1; [|destruct X|destruct X].
  destruct (surf_build ex_fp 8 b1 rb rb 10000) as [[s2 b2]| |] eqn:E2; [|destruct X|destruct X].
  exists ex_fp, 1, 0, 0, ra, ra, rb, rb, 0%Z, 10000%Z, s1, s2, b2, [2; 7].
  split; [exact (rebuilt_ex ra rb 0 10000 s1 b1 _ eq_refl E1 E2)|]. split; [reflexivity|exact X].
Qed.
Print Assumptions C23_second_get_refuted.
