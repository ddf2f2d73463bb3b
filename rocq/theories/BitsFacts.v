(** * Facts about word operations: testbit, popcount, trailing zeros. *)
From Verif Require Import Base BitsModel.
Ltac Zify.zify_post_hook ::= Z.div_mod_to_equations.

(** Bit [i] of a word, [i : nat]. *)
Definition tb (x : N) (i : nat) : bool := N.testbit x (N.of_nat i).

Open Scope N_scope.

Lemma testbit_high x n i : x < 2 ^ n -> n <= i -> N.testbit x i = false.
Proof.
  intros Hx Hi. destruct (N.eq_dec x 0) as [->|H0]; [apply N.bits_0|].
  apply N.bits_above_log2. apply N.log2_lt_pow2; [lia|].
  eapply N.lt_le_trans; [exact Hx|]. apply N.pow_le_mono_r; lia.
Qed.

Lemma tb_high x n i : x < 2 ^ N.of_nat n -> (n <= i)%nat -> tb x i = false.
Proof. intros Hx Hi. unfold tb. eapply testbit_high; [exact Hx|lia]. Qed.

Lemma testbit_lt_pow2 x n : (forall i, n <= i -> N.testbit x i = false) -> x < 2 ^ n.
Proof.
  intros H. destruct (N.eq_dec x 0) as [->|H0].
  - apply N.neq_0_lt_0. apply N.pow_nonzero; lia.
  - apply N.log2_lt_pow2; [lia|]. destruct (N.lt_ge_cases (N.log2 x) n) as [Hl|Hl]; auto.
    specialize (H _ Hl). rewrite N.bit_log2 in H by auto. discriminate.
Qed.

Lemma testbit_add_pow2 a b n i :
  a < 2 ^ n ->
  N.testbit (a + 2 ^ n * b) i = if i <? n then N.testbit a i else N.testbit b (i - n).
Proof.
  intros Ha.
  assert (Hs : forall j, N.testbit (2 ^ n * b) j = if j <? n then false else N.testbit b (j - n)).
  { intros j. rewrite N.mul_comm. destruct (N.ltb_spec j n).
    - now apply N.mul_pow2_bits_low.
    - replace j with ((j - n) + n) at 1 by lia. now rewrite N.mul_pow2_bits_add. }
  assert (Hz : N.land a (2 ^ n * b) = 0).
  { apply N.bits_inj. intros j. rewrite N.land_spec, N.bits_0, Hs.
    destruct (N.ltb_spec j n); [apply andb_false_r|].
    rewrite (testbit_high a n j) by auto. reflexivity. }
  rewrite N.add_nocarry_lxor by exact Hz. rewrite N.lxor_spec, Hs.
  destruct (N.ltb_spec i n).
  - apply xorb_false_r.
  - rewrite (testbit_high a n i) by auto. apply xorb_false_l.
Qed.

Lemma land_split a b c d n :
  a < 2 ^ n -> c < 2 ^ n ->
  N.land (a + 2 ^ n * b) (c + 2 ^ n * d) = N.land a c + 2 ^ n * N.land b d.
Proof.
  intros Ha Hc.
  assert (Hac : N.land a c < 2 ^ n).
  { apply testbit_lt_pow2. intros i Hi. rewrite N.land_spec, (testbit_high a n) by auto. reflexivity. }
  apply N.bits_inj. intros i.
  rewrite N.land_spec, !testbit_add_pow2 by auto.
  destruct (i <? n); now rewrite N.land_spec.
Qed.

Lemma lor_split a b c d n :
  a < 2 ^ n -> c < 2 ^ n ->
  N.lor (a + 2 ^ n * b) (c + 2 ^ n * d) = N.lor a c + 2 ^ n * N.lor b d.
Proof.
  intros Ha Hc.
  assert (Hac : N.lor a c < 2 ^ n).
  { apply testbit_lt_pow2. intros i Hi.
    rewrite N.lor_spec, (testbit_high a n), (testbit_high c n) by auto. reflexivity. }
  apply N.bits_inj. intros i.
  rewrite N.lor_spec, !testbit_add_pow2 by auto.
  destruct (i <? n); now rewrite N.lor_spec.
Qed.

Close Scope N_scope.

(** popcount *)
Lemma pop_double x : pop (N.double x) = pop x.
Proof. now destruct x. Qed.
Lemma pop_succ_double x : pop (N.succ_double x) = S (pop x).
Proof. now destruct x. Qed.

Lemma tb_double_0 x : tb (N.double x) 0 = false.
Proof. now destruct x. Qed.
Lemma tb_succ_double_0 x : tb (N.succ_double x) 0 = true.
Proof. now destruct x. Qed.
Lemma tb_double_S x i : tb (N.double x) (S i) = tb x i.
Proof.
  unfold tb. rewrite N.double_spec, Nat2N.inj_succ. apply N.testbit_even_succ. lia.
Qed.
Lemma tb_succ_double_S x i : tb (N.succ_double x) (S i) = tb x i.
Proof.
  unfold tb. rewrite N.succ_double_spec, Nat2N.inj_succ. apply N.testbit_odd_succ. lia.
Qed.

Lemma N_double_cases (x : N) : exists y, x = N.double y \/ x = N.succ_double y.
Proof.
  destruct x as [|[p|p|]].
  - exists 0%N; now left.
  - exists (Npos p); now right.
  - exists (Npos p); now left.
  - exists 0%N; now right.
Qed.

Lemma cnt_shift f n : cnt f (S n) = (if f 0 then 1 else 0) + cnt (fun i => f (S i)) n.
Proof. change (S n) with (1 + n). rewrite cnt_add. cbn. lia. Qed.

Lemma pop_cnt x n : (x < 2 ^ N.of_nat n)%N -> pop x = cnt (tb x) n.
Proof.
  revert x; induction n as [|n IH]; intros x Hx.
  - cbn in Hx. assert (x = 0%N) by lia. now subst.
  - rewrite cnt_shift. rewrite Nat2N.inj_succ, N.pow_succ_r' in Hx.
    destruct (N_double_cases x) as [y [-> | ->]].
    + rewrite N.double_spec in Hx.
      rewrite pop_double, tb_double_0, (cnt_ext _ (tb y)) by (intros; apply tb_double_S).
      rewrite IH; [reflexivity|lia].
    + rewrite N.succ_double_spec in Hx.
      rewrite pop_succ_double, tb_succ_double_0, (cnt_ext _ (tb y)) by (intros; apply tb_succ_double_S).
      rewrite IH; [reflexivity|lia].
Qed.

Lemma pop64_cnt x : (x < two64)%N -> pop x = cnt (tb x) 64.
Proof. intros H. apply pop_cnt. exact H. Qed.

Lemma tb_split a b n i :
  (a < 2 ^ N.of_nat n)%N ->
  tb (a + 2 ^ N.of_nat n * b) i = if Nat.ltb i n then tb a i else tb b (i - n).
Proof.
  intros H. unfold tb. rewrite testbit_add_pow2 by auto.
  destruct (Nat.ltb_spec i n), (N.ltb_spec (N.of_nat i) (N.of_nat n)); try lia; auto.
  f_equal. lia.
Qed.

Lemma pop_split a b n :
  (a < 2 ^ N.of_nat n)%N -> pop (a + 2 ^ N.of_nat n * b) = pop a + pop b.
Proof.
  intros Ha.
  set (m := N.to_nat (N.size b)).
  assert (Hb : (b < 2 ^ N.of_nat m)%N).
  { unfold m. rewrite N2Nat.id. apply N.size_gt. }
  rewrite (pop_cnt (a + 2 ^ N.of_nat n * b) (n + m)).
  - rewrite cnt_add, (pop_cnt a n), (pop_cnt b m) by auto. f_equal.
    + apply cnt_ext. intros i Hi. rewrite tb_split by auto.
      destruct (Nat.ltb_spec i n); [auto|lia].
    + apply cnt_ext. intros i Hi. rewrite tb_split by auto.
      destruct (Nat.ltb_spec (n + i) n); [lia|]. f_equal. lia.
  - rewrite Nat2N.inj_add, N.pow_add_r.
    assert (a + 2 ^ N.of_nat n * b < 2 ^ N.of_nat n + 2 ^ N.of_nat n * b)%N by lia.
    assert (b + 1 <= 2 ^ N.of_nat m)%N by lia.
    assert (2 ^ N.of_nat n * (b + 1) <= 2 ^ N.of_nat n * 2 ^ N.of_nat m)%N by (apply N.mul_le_mono_l; auto).
    lia.
Qed.

(** trailing zeros *)
Lemma ctz64_spec x :
  x <> 0%N -> tb x (ctz64 x) = true /\ (forall i, i < ctz64 x -> tb x i = false).
Proof.
  destruct x as [|p]; [congruence|]. intros _. cbn [ctz64].
  induction p as [p IH|p IH|]; cbn [ctzp].
  - split; [reflexivity|lia].
  - change (N.pos p~0) with (N.double (N.pos p)). destruct IH as [IH1 IH2]. split.
    + rewrite tb_double_S. exact IH1.
    + intros [|i] Hi; [apply tb_double_0|]. rewrite tb_double_S. apply IH2. lia.
  - split; [reflexivity|lia].
Qed.

Lemma ctz64_unique x n :
  tb x n = true -> (forall i, i < n -> tb x i = false) -> ctz64 x = n.
Proof.
  intros H1 H2. assert (x <> 0%N) as Hx.
  { intros ->. unfold tb in H1. now rewrite N.bits_0 in H1. }
  destruct (ctz64_spec x Hx) as [H3 H4].
  destruct (Nat.lt_trichotomy (ctz64 x) n) as [H|[H|H]]; auto.
  - apply H2 in H. congruence.
  - apply H4 in H. congruence.
Qed.

(** Len64 *)
Lemma len64_spec x :
  x <> 0%N -> 0 < len64 x /\ tb x (len64 x - 1) = true /\ (forall i, len64 x <= i -> tb x i = false).
Proof.
  intros Hx. unfold len64. rewrite N.size_log2 by auto.
  split; [lia|]. split.
  - unfold tb. replace (N.of_nat (N.to_nat (N.succ (N.log2 x)) - 1)) with (N.log2 x) by lia.
    now apply N.bit_log2.
  - intros i Hi. unfold tb. apply N.bits_above_log2. lia.
Qed.

Lemma tb_lt_pow2 x n : (forall i, n <= i -> tb x i = false) -> (x < 2 ^ N.of_nat n)%N.
Proof.
  intros H. apply testbit_lt_pow2. intros i Hi.
  specialize (H (N.to_nat i)). unfold tb in H. rewrite N2Nat.id in H. apply H. lia.
Qed.

Lemma tb_inj x y : (forall i, tb x i = tb y i) -> x = y.
Proof.
  intros H. apply N.bits_inj. intros i. specialize (H (N.to_nat i)).
  unfold tb in H. now rewrite N2Nat.id in H.
Qed.

(** shifts *)
Lemma tb_w64 x i : tb (w64 x) i = if Nat.ltb i 64 then tb x i else false.
Proof.
  unfold tb, w64, two64. destruct (Nat.ltb_spec i 64).
  - apply N.mod_pow2_bits_low. lia.
  - apply N.mod_pow2_bits_high. lia.
Qed.

Lemma tb_shl64 x n i :
  tb (shl64 x (N.of_nat n)) i = (Nat.leb n i && Nat.ltb i 64 && tb x (i - n)).
Proof.
  unfold shl64. rewrite tb_w64. destruct (Nat.ltb_spec i 64); [|now rewrite andb_false_r].
  rewrite andb_true_r. unfold tb. destruct (Nat.leb_spec n i); cbn.
  - rewrite N.shiftl_spec_high' by lia. f_equal. lia.
  - apply N.shiftl_spec_low. lia.
Qed.

Lemma tb_shr64 x n i : tb (shr64 x (N.of_nat n)) i = tb x (i + n).
Proof. unfold tb, shr64. rewrite N.shiftr_spec by lia. f_equal. lia. Qed.

Lemma tb_lor x y i : tb (N.lor x y) i = tb x i || tb y i.
Proof. apply N.lor_spec. Qed.
Lemma tb_land x y i : tb (N.land x y) i = tb x i && tb y i.
Proof. apply N.land_spec. Qed.

Lemma w64_lt x : (w64 x < two64)%N.
Proof. unfold w64. apply N.mod_lt. discriminate. Qed.
Lemma w64_small x : (x < two64)%N -> w64 x = x.
Proof. apply N.mod_small. Qed.

Lemma lor_lt64 x y : (x < two64)%N -> (y < two64)%N -> (N.lor x y < two64)%N.
Proof.
  intros Hx Hy. apply (tb_lt_pow2 _ 64). intros i Hi. rewrite tb_lor.
  rewrite (tb_high x 64 i), (tb_high y 64 i) by (exact Hx || exact Hy || lia). reflexivity.
Qed.

Lemma shl64_lt x n : (shl64 x n < two64)%N.
Proof. apply w64_lt. Qed.
Lemma shr64_lt x n : (x < two64)%N -> (shr64 x n < two64)%N.
Proof.
  intros H. unfold shr64. rewrite N.shiftr_div_pow2.
  assert (0 < 2 ^ n)%N by (apply N.neq_0_lt_0; apply N.pow_nonzero; lia).
  eapply N.le_lt_trans; [|exact H]. apply N.div_le_upper_bound; [lia|]. nia.
Qed.

Lemma sub64_small a b : (a < two64)%N -> (b <= a)%N -> sub64 a b = (a - b)%N.
Proof.
  intros Ha Hb. unfold sub64. rewrite (N.mod_small b) by lia.
  replace (a + two64 - b)%N with ((a - b) + 1 * two64)%N by lia.
  rewrite N.mod_add by discriminate. apply N.mod_small. lia.
Qed.

Lemma nonzero_tb x : x <> 0%N -> exists i, tb x i = true.
Proof. intros H. exists (ctz64 x). now apply ctz64_spec. Qed.

Lemma zero_tb x : (forall i, tb x i = false) -> x = 0%N.
Proof. intros H. apply tb_inj. intros i. rewrite H. unfold tb. now rewrite N.bits_0. Qed.

Lemma tb_one i : tb 1 i = Nat.eqb i 0.
Proof.
  unfold tb. destruct i as [|i]; [reflexivity|].
  change 1%N with (2 ^ 0)%N. apply N.pow2_bits_false. lia.
Qed.

(** popcount of a word shifted left counts the low bits. *)
Lemma pop_shl x n : (x < two64)%N -> n <= 64 ->
  pop (shl64 x (N.of_nat (64 - n))) = cnt (tb x) n.
Proof.
  intros Hx Hn. rewrite pop64_cnt by apply shl64_lt.
  replace 64 with ((64 - n) + n) at 2 by lia. rewrite cnt_add.
  rewrite cnt_false.
  - rewrite Nat.add_0_l. apply cnt_ext. intros i Hi. rewrite tb_shl64.
    destruct (Nat.leb_spec (64 - n) (64 - n + i)); [|lia].
    destruct (Nat.ltb_spec (64 - n + i) 64); [|lia]. cbn [andb]. f_equal. lia.
  - intros i Hi. rewrite tb_shl64. destruct (Nat.leb_spec (64 - n) i); [lia|reflexivity].
Qed.
