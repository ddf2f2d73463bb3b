(** * The bit vector theorems in terms of BitsSpec. *)
From Verif Require Import Base BitsModel BitsFacts Select64 VecModel VecProofs VecProofs2 BitsSpec.

Lemma word_bits_bits_of ws n : word_bits ws n = bits_of ws n.
Proof. reflexivity. Qed.

Lemma clean_level_ok ws n : clean_level ws n -> level_ok ws n.
Proof.
  intros (H1 & H2 & H3). split; [exact H1|]. split; auto. intros i Hi.
  destruct (Nat.lt_ge_cases i (64 * length ws)).
  - apply H3; lia.
  - unfold gbit. rewrite nth_overflow by (apply Nat.div_le_lower_bound; lia).
    unfold tb. apply N.bits_0.
Qed.

Lemma all_bits_concat levels : forall nums, all_bits levels nums = concat_levels levels nums.
Proof.
  unfold concat_levels. induction levels as [|ws ls IH]; intros [|n ns]; cbn; auto.
  rewrite IH. reflexivity.
Qed.

Lemma clean_levels_ok levels nums : Forall2 clean_level levels nums ->
  Forall2 level_ok levels (firstn (length levels) nums) /\ skipn (length levels) nums = [].
Proof.
  intros H. rewrite (Forall2_length _ _ _ H), firstn_all, skipn_all. split; auto.
  induction H; constructor; auto. now apply clean_level_ok.
Qed.

Lemma ones_app a b : ones (a ++ b) = ones a + ones b.
Proof. induction a as [|x a IH]; cbn; auto. rewrite IH. lia. Qed.

Lemma ones_firstn B n : ones (firstn n B) = cntl B n.
Proof.
  unfold cntl. revert B. induction n as [|n IH]; intros [|b B]; try reflexivity.
  - symmetry. apply cnt_false. intros i _. destruct i; reflexivity.
  - rewrite cnt_shift. cbn [firstn ones nth]. rewrite IH. reflexivity.
Qed.

Lemma ones_cntl B : ones B = cntl B (length B).
Proof. rewrite <- (firstn_all B) at 1. apply ones_firstn. Qed.

Lemma cntl_mono' B n m : n <= m -> cntl B n <= cntl B m.
Proof. apply cntl_mono. Qed.

Lemma is_select_kth B k p : is_select B k p -> kth_one B k p.
Proof.
  intros (H1 & H2 & H3). split; [|rewrite ones_firstn; auto].
  rewrite <- H2. apply nth_error_nth'. auto.
Qed.

Lemma concat_read levels nums : Forall2 clean_level levels nums ->
  exists v, bitVector_init levels nums = Ok v /\ bv_numBits v = length (all_bits levels nums) /\
    (forall p b, nth_error (all_bits levels nums) p = Some b -> bv_isSet v p = Ok b) /\
    (forall p, length (all_bits levels nums) <= p < 64 * length (bv_bits v) -> bv_isSet v p = Ok false).
Proof.
  intros H. destruct (clean_levels_ok _ _ H) as (H1 & H2).
  destruct (bitVector_init_correct levels nums H1) as (v & E & R). exists v. split; auto.
  rewrite H2 in R. cbn in R. rewrite app_nil_r, <- all_bits_concat in R.
  destruct R as (R1 & R2 & R3). split; auto. split.
  - intros p b Hp. assert (p < length (all_bits levels nums)) by (apply nth_error_Some; congruence).
    rewrite (bv_isSet_spec v (all_bits levels nums) p) by (auto; split; auto).
    f_equal. now apply nth_error_nth.
  - intros p Hp. unfold bv_isSet, readBit, bind. destruct R3 as (Ok1 & R3).
    pose proof (R3 p) as R4. rewrite (nth_overflow (all_bits _ _)) in R4 by lia.
    unfold idx. rewrite (nth_error_nth' _ 0%N) by (apply Nat.div_lt_upper_bound; lia).
    f_equal. apply negb_false_iff. apply N.eqb_eq. apply N.bits_inj_0. intros q. rewrite N.land_spec.
    unfold shl64, w64. destruct (N.lt_ge_cases q 64) as [Hq|Hq].
    + unfold two64. rewrite N.mod_pow2_bits_low by auto. rewrite N.shiftl_1_l, N.pow2_bits_eqb.
      destruct (N.eqb_spec (N.of_nat (p mod 64)) q) as [<-|]; [|apply andb_false_r].
      rewrite andb_true_r. exact R4.
    + unfold two64. rewrite N.mod_pow2_bits_high by auto. apply andb_false_r.
Qed.

Lemma rank_top bsz levels nums : bsz = 64 \/ bsz = 512 -> Forall2 clean_level levels nums ->
  exists v, rankVector_init bsz levels nums = Ok v /\
    forall p, p < length (all_bits levels nums) ->
      rank_at bsz v p = Ok (ones (firstn (p + 1) (all_bits levels nums))).
Proof.
  intros Hb H. destruct (clean_levels_ok _ _ H) as (H1 & H2).
  destruct (rankVector_init_spec bsz levels nums) as (v & E & R); auto.
  { destruct Hb; subst; lia. } { destruct Hb; subst; reflexivity. }
  exists v. split; auto. rewrite H2 in R. cbn in R. rewrite app_nil_r, <- all_bits_concat in R.
  intros p Hp. rewrite (rank_at_spec bsz v (all_bits levels nums)); auto.
  - f_equal. symmetry. apply ones_firstn.
  - destruct Hb; subst; lia.
  - destruct Hb; subst; reflexivity.
Qed.

Lemma select_top levels nums : Forall2 clean_level levels nums ->
  nth_error (all_bits levels nums) 0 = Some true ->
  exists v, selectVector_init levels nums = Ok v /\ sv_numOnes v = ones (all_bits levels nums) /\
    forall k, 1 <= k <= ones (all_bits levels nums) ->
      exists p, select v k = Ok p /\ kth_one (all_bits levels nums) k p.
Proof.
  intros H H0. destruct (clean_levels_ok _ _ H) as (H1 & H2).
  destruct (selectVector_init_spec levels nums H1) as (v & E & R). exists v. split; auto.
  rewrite H2 in R. cbn in R. rewrite app_nil_r, <- all_bits_concat in R. split.
  { destruct R as (_ & R & _). rewrite R. symmetry. apply ones_cntl. }
  intros k Hk. destruct (select_correct v (all_bits levels nums) k R) as (p & Ep & Hp).
  - now apply nth_error_nth.
  - now rewrite <- ones_cntl.
  - exists p. split; auto. now apply is_select_kth.
Qed.

Lemma select64_top x k : (x < 2 ^ 64)%N -> 1 <= k <= ones (word_bits [x] 64) ->
  exists p, kth_one (word_bits [x] 64) k p /\
    select64Broadword x (N.of_nat k) = Ok p /\ select64_other x (N.of_nat k) = Ok p /\
    select64_amd64 true x (N.of_nat k) = Ok p /\ select64_amd64 false x (N.of_nat k) = Ok p.
Proof.
  intros Hx Hk.
  assert (HC : forall n, n <= 64 -> cntl (word_bits [x] 64) n = cnt (tb x) n).
  { intros n Hn. unfold cntl. apply cnt_ext. intros i Hi. unfold word_bits. rewrite nth_map_seq by lia.
    rewrite Nat.div_small, Nat.mod_small by lia. reflexivity. }
  assert (HP : ones (word_bits [x] 64) = pop x).
  { rewrite ones_cntl. change (length _) with 64. rewrite HC by lia. symmetry. apply pop64_cnt. exact Hx. }
  rewrite HP in Hk.
  destruct (select64Broadword_correct x k Hx Hk) as (p & E & S1 & S2 & S3). exists p. split.
  - split.
    + rewrite (nth_error_nth' _ false) by (exact S1). unfold word_bits. rewrite nth_map_seq by lia.
      rewrite Nat.div_small, Nat.mod_small by lia. f_equal. exact S2.
    + rewrite ones_firstn, HC by lia. exact S3.
  - repeat split; auto. rewrite select64_agree by auto. exact E.
Qed.

Lemma nth_true_error B q : nth q B false = true <-> nth_error B q = Some true.
Proof.
  split; intros H.
  - rewrite <- H. apply nth_error_nth'. now apply nth_true_lt.
  - now apply nth_error_nth.
Qed.

Lemma nth_false_error B q : nth q B false = false <-> nth_error B q <> Some true.
Proof. rewrite <- nth_true_error. destruct (nth q B false); intuition congruence. Qed.

Lemma next_top levels nums p : Forall2 clean_level levels nums -> p < length (all_bits levels nums) ->
  exists v d, bitVector_init levels nums = Ok v /\ distanceToNextSetBit v p = Ok d /\
    let B := all_bits levels nums in
    ((exists q, next_one B p q /\ d = q - p) \/
     (forall q, p < q -> nth_error B q <> Some true) /\
     (d = length B - p \/ d = 0 /\ p + 1 = length B /\ length B mod 64 = 0)).
Proof.
  intros H Hp. destruct (clean_levels_ok _ _ H) as (H1 & H2).
  destruct (bitVector_init_correct levels nums H1) as (v & E & R).
  rewrite H2 in R. cbn in R. rewrite app_nil_r, <- all_bits_concat in R.
  destruct (distanceToNextSetBit_correct v _ p R Hp) as (d & Ed & Hd). exists v, d. split; auto. split; auto. cbn zeta.
  destruct Hd as [(q & (Q1 & Q2 & Q3) & ->)|(Q & ->)].
  - left. exists q. split; auto. split; auto. split; [now apply nth_true_error|]. intros i Hi. apply nth_false_error; auto.
  - right. split; [intros q Hq; apply nth_false_error; auto|].
    destruct (Nat.eqb_spec ((p + 1) mod 64) 0); cbn [andb]; auto.
    destruct (Nat.eqb_spec (p + 1) (length (all_bits levels nums))) as [Ep|]; auto. right. rewrite <- Ep. auto.
Qed.

Lemma prev_top levels nums p : Forall2 clean_level levels nums -> p <= length (all_bits levels nums) ->
  exists v d, bitVector_init levels nums = Ok v /\ distanceToPrevSetBit v p = Ok d /\
    let B := all_bits levels nums in
    ((exists q, prev_one B p q /\ d = p - q) \/
     (forall q, q < p -> nth_error B q <> Some true) /\ d = p + 1).
Proof.
  intros H Hp. destruct (clean_levels_ok _ _ H) as (H1 & H2).
  destruct (bitVector_init_correct levels nums H1) as (v & E & R).
  rewrite H2 in R. cbn in R. rewrite app_nil_r, <- all_bits_concat in R.
  destruct (distanceToPrevSetBit_correct v _ p R Hp) as (d & Ed & Hd). exists v, d. split; auto. split; auto. cbn zeta.
  destruct Hd as [(q & (Q1 & Q2 & Q3) & ->)|(Q & ->)].
  - left. exists q. split; auto. split; auto. split; [now apply nth_true_error|]. intros i Hi. apply nth_false_error; auto.
  - right. split; auto. intros q Hq; apply nth_false_error; auto.
Qed.

(** At the last position of a vector that fills its last word the answer is 0, not 1. *)
Lemma next_end_counterexample : exists levels nums p v, Forall2 clean_level levels nums /\
  p + 1 = length (all_bits levels nums) /\
  bitVector_init levels nums = Ok v /\ distanceToNextSetBit v p = Ok 0.
Proof.
  exists [[1%N]], [64], 63. eexists. split; [|split; [reflexivity|split; [vm_compute; reflexivity|vm_compute; reflexivity]]].
  repeat constructor. intros i Hi. cbn in Hi. lia.
Qed.
