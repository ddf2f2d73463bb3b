(** * Bit vector properties C30-C34. *)
From Verif Require Import Base BitsModel VecModel BitsSpec BitsTop.

(** Three levels of 3, 130 and 70 bits: used in the examples below. *)
Definition ex_levels : list (list N) :=
  [[5%N]; [9223372036854775809%N; 0%N; 2%N]; [6%N; 33%N]].
Definition ex_nums : list nat := [3; 130; 70].
Lemma ex_clean : Forall2 clean_level ex_levels ex_nums.
Proof.
  assert (D : forall ws n, forallb (fun w => N.ltb w (2 ^ 64)) ws = true -> Nat.leb n (64 * length ws) = true ->
    forallb (fun i => Nat.ltb i n || negb (N.testbit (nth (i / 64) ws 0%N) (N.of_nat (i mod 64)))) (seq 0 (64 * length ws)) = true ->
    clean_level ws n).
  { intros ws n H1 H2 H3. split; [|split].
    - apply Forall_forall. intros w Hw. rewrite forallb_forall in H1. apply N.ltb_lt. now apply H1.
    - now apply Nat.leb_le.
    - intros i Hi. rewrite forallb_forall in H3. specialize (H3 i). rewrite in_seq in H3. specialize (H3 ltac:(lia)).
      apply orb_true_iff in H3 as [H3|H3]; [apply Nat.ltb_lt in H3; lia|]. now apply negb_true_iff in H3. }
  repeat constructor; apply D; vm_compute; reflexivity.
Qed.

(** C30 *)
Theorem C30_rank : forall blockSize levels nums,
  blockSize = 64 \/ blockSize = 512 -> Forall2 clean_level levels nums ->
  exists v, rankVector_init blockSize levels nums = Ok v /\
    forall p, p < length (all_bits levels nums) ->
      rank_at blockSize v p = Ok (ones (firstn (p + 1) (all_bits levels nums))).
Proof. exact rank_top. Qed.
Print Assumptions C30_rank.
Example C30_example : length (all_bits ex_levels ex_nums) = 203 /\
  ones (firstn (132 + 1) (all_bits ex_levels ex_nums)) = 5 /\
  (v <- rankVector_init 64 ex_levels ex_nums ;; rank_at 64 v 132) = Ok 5.
Proof. vm_compute. auto. Qed.

(** C31 *)
Theorem C31_select : forall levels nums, Forall2 clean_level levels nums ->
  nth_error (all_bits levels nums) 0 = Some true ->
  exists v, selectVector_init levels nums = Ok v /\ sv_numOnes v = ones (all_bits levels nums) /\
    forall k, 1 <= k <= ones (all_bits levels nums) ->
      exists p, select v k = Ok p /\ kth_one (all_bits levels nums) k p.
Proof. exact select_top. Qed.
Print Assumptions C31_select.
Example C31_example : nth_error (all_bits ex_levels ex_nums) 0 = Some true /\
  ones (all_bits ex_levels ex_nums) = 9 /\
  (v <- selectVector_init ex_levels ex_nums ;; select v 9) = Ok 202.
Proof. vm_compute. auto. Qed.

(** The hypothesis on bit 0 is needed: the lookup table assumes the first set bit is at 0. *)
Theorem C31_first_bit_needed : exists levels nums v, Forall2 clean_level levels nums /\
  selectVector_init levels nums = Ok v /\ 1 <= ones (all_bits levels nums) /\
  exists p, select v 1 = Ok p /\ ~ kth_one (all_bits levels nums) 1 p.
Proof.
  exists [[2%N]], [2]. eexists. split; [|split; [vm_compute; reflexivity|split; [vm_compute; lia|]]].
  - repeat constructor. intros i Hi. cbn in Hi. assert (E : i / 64 = 0) by (apply Nat.div_small; lia).
    rewrite E, Nat.mod_small by lia. cbn [nth].
    destruct i as [|[|i]]; try lia. change 2%N with (2 ^ 1)%N. rewrite N.pow2_bits_eqb.
    apply N.eqb_neq. lia.
  - exists 0. split; [vm_compute; reflexivity|]. intros (H & _). vm_compute in H. discriminate.
Qed.
Print Assumptions C31_first_bit_needed.

(** C32 *)
Theorem C32_select64 : forall x k, (x < 2 ^ 64)%N -> 1 <= k <= ones (word_bits [x] 64) ->
  exists p, kth_one (word_bits [x] 64) k p /\
    select64Broadword x (N.of_nat k) = Ok p /\ select64_other x (N.of_nat k) = Ok p /\
    select64_amd64 true x (N.of_nat k) = Ok p /\ select64_amd64 false x (N.of_nat k) = Ok p.
Proof. exact select64_top. Qed.
Print Assumptions C32_select64.
Example C32_example : (0x8000010000000011 < 2 ^ 64)%N /\ 1 <= 4 <= ones (word_bits [0x8000010000000011%N] 64) /\
  select64_amd64 true 0x8000010000000011 4 = Ok 63.
Proof. split; [reflexivity|]. vm_compute. split; auto. Qed.

(** C33 *)
Theorem C33_concat : forall levels nums, Forall2 clean_level levels nums ->
  exists v, bitVector_init levels nums = Ok v /\ bv_numBits v = length (all_bits levels nums) /\
    (forall p b, nth_error (all_bits levels nums) p = Some b -> bv_isSet v p = Ok b) /\
    (forall p, length (all_bits levels nums) <= p < 64 * length (bv_bits v) -> bv_isSet v p = Ok false).
Proof. exact concat_read. Qed.
Print Assumptions C33_concat.
Example C33_example : nth_error (all_bits ex_levels ex_nums) 132 = Some true /\
  (v <- bitVector_init ex_levels ex_nums ;; bv_isSet v 132) = Ok true.
Proof. vm_compute. auto. Qed.

(** C34 (the full statement has "or the distance to the end" without exception) *)
Theorem C34_distance_next_partial : forall levels nums p,
  Forall2 clean_level levels nums -> p < length (all_bits levels nums) ->
  exists v d, bitVector_init levels nums = Ok v /\ distanceToNextSetBit v p = Ok d /\
    let B := all_bits levels nums in
    ((exists q, next_one B p q /\ d = q - p) \/
     (forall q, p < q -> nth_error B q <> Some true) /\
     (d = length B - p \/ d = 0 /\ p + 1 = length B /\ length B mod 64 = 0)).
Proof. exact next_top. Qed.
Print Assumptions C34_distance_next_partial.
Theorem C34_distance_next_refuted : exists levels nums p v, Forall2 clean_level levels nums /\
  p + 1 = length (all_bits levels nums) /\
  bitVector_init levels nums = Ok v /\ distanceToNextSetBit v p = Ok 0.
Proof. exact next_end_counterexample. Qed.
Print Assumptions C34_distance_next_refuted.
Theorem C34_distance_prev : forall levels nums p,
  Forall2 clean_level levels nums -> p <= length (all_bits levels nums) ->
  exists v d, bitVector_init levels nums = Ok v /\ distanceToPrevSetBit v p = Ok d /\
    let B := all_bits levels nums in
    ((exists q, prev_one B p q /\ d = p - q) \/
     (forall q, q < p -> nth_error B q <> Some true) /\ d = p + 1).
Proof. exact prev_top. Qed.
Print Assumptions C34_distance_prev.
Example C34_example :
  (v <- bitVector_init ex_levels ex_nums ;; distanceToNextSetBit v 3) = Ok 63 /\
  (v <- bitVector_init ex_levels ex_nums ;; distanceToPrevSetBit v 132) = Ok 66.
Proof. vm_compute. auto. Qed.
