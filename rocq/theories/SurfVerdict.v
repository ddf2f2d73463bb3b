(** * SurfVerdict: what comparing a stored suffix with a query yields. *)
From Verif Require Import Base BitsModel BitsFacts VecModel VecProofs VecProofs2 SurfModel SurfTrie SurfSuffix SurfBuild SurfDense SurfEnc SurfBuildTop SurfGet SurfGet2 SurfSpec SurfWalk SurfTop SurfSuffix2 SurfSuffix3 SurfGetSpec SurfExact SurfIter SurfIterSpec.
Ltac Zify.zify_post_hook ::= Z.div_mod_to_equations.

(** ** [nearb] and [passedb] as propositions *)
Definition near (keys : list bytes) (k q : bytes) : Prop := ~ continued keys k /\ is_prefix (dprefix keys k) q.
Definition passed (r : nat) (keys : list bytes) (q k : bytes) : Prop :=
  (near keys k q /\ verdict r (length (dprefix keys k)) k q = Lt) \/ (~ near keys k q /\ blt k q).
Lemma continuedb_iff keys k : continuedb keys k = true <-> continued keys k.
Proof.
  unfold continuedb, continued. rewrite existsb_exists. split; intros (k' & I & H); exists k'; (split; [exact I|]).
  - apply andb_true_iff in H as [P N]. split; [now apply is_prefixb_iff|]. intros ->. now rewrite beqb_refl in N.
  - destruct H as [P N]. apply andb_true_iff. split; [now apply is_prefixb_iff|]. apply negb_true_iff. now apply beqb_neq.
Qed.
Lemma continuedb_false keys k : continuedb keys k = false <-> ~ continued keys k.
Proof. rewrite <- continuedb_iff. destruct (continuedb keys k); split; congruence. Qed.
Lemma nearb_iff keys k q : nearb keys k q = true <-> near keys k q.
Proof. unfold nearb, near. now rewrite andb_true_iff, negb_true_iff, continuedb_false, is_prefixb_iff. Qed.
Lemma nearb_false keys k q : nearb keys k q = false <-> ~ near keys k q.
Proof. rewrite <- nearb_iff. destruct (nearb keys k q); split; congruence. Qed.
Lemma passedb_iff r keys q k : passedb r keys q k = true <-> passed r keys q k.
Proof.
  unfold passedb, passed. destruct (nearb keys k q) eqn:N.
  - apply nearb_iff in N. destruct (verdict r (length (dprefix keys k)) k q) eqn:E; split; intros H; try discriminate; auto; exfalso; destruct H as [[_ H]|[H _]]; congruence.
  - apply nearb_false in N. unfold blt. destruct (bcompare k q) eqn:E; split; intros H; try discriminate; auto; exfalso; destruct H as [[H _]|[_ H]]; congruence.
Qed.

Lemma near_stored keys k q : near keys k q -> In q keys -> k = q.
Proof.
  intros [NC P] I. destruct (list_eq_dec Nat.eq_dec k q) as [|NE]; auto. exfalso. unfold dprefix in P. destruct (find (unique_prefix keys k) (seq 1 (length k))) as [n|] eqn:F.
  - apply find_some in F as [_ U]. apply NE. symmetry. exact (proj1 (unique_prefix_iff _ _ _) U q I P).
  - apply NC. exists q. auto.
Qed.

(** ** Kept parts compare as the numbers they are stored as *)
Lemma num_app_bound l : forall a b, bytes_ok l -> (a < b)%N -> (num l a < b * 256 ^ N.of_nat (length l))%N.
Proof.
  induction l as [|x l IH]; intros a b B H; unfold num in *; cbn [fold_left length].
  - change (256 ^ N.of_nat 0)%N with 1%N. lia.
  - inversion B as [|? ? Hx Bl]; subst. rewrite Nat2N.inj_succ, N.pow_succ_r'. rewrite N.mul_assoc. apply IH; auto. lia.
Qed.
Lemma num_base l : forall a, (a * 256 ^ N.of_nat (length l) <= num l a)%N.
Proof.
  induction l as [|x l IH]; intros a; unfold num in *; cbn [fold_left length].
  - change (256 ^ N.of_nat 0)%N with 1%N. lia.
  - rewrite Nat2N.inj_succ, N.pow_succ_r', N.mul_assoc. eapply N.le_trans; [|apply IH]. apply N.mul_le_mono_r. lia.
Qed.
Lemma num_lt l l' a b : bytes_ok l -> length l = length l' -> (a < b)%N -> (num l a < num l' b)%N.
Proof.
  intros B L H. eapply N.lt_le_trans; [apply (num_app_bound l a (a + 1) B); lia|]. eapply N.le_trans; [|apply num_base]. rewrite L. apply N.mul_le_mono_r. lia.
Qed.
Lemma num_compare l : forall l' a, bytes_ok l -> bytes_ok l' -> length l = length l' -> (num l a ?= num l' a)%N = bcompare l l'.
Proof.
  induction l as [|x l IH]; intros [|y l'] a B B' L; cbn [length] in L; try discriminate.
  - apply N.compare_refl.
  - injection L as L. inversion B; inversion B'; subst. cbn [bcompare]. change (num (x :: l) a) with (num l (a * 256 + N.of_nat x)). change (num (y :: l') a) with (num l' (a * 256 + N.of_nat y)).
    destruct (Nat.compare_spec x y) as [E|E|E].
    + subst. apply IH; auto.
    + apply N.compare_lt_iff. apply num_lt; auto. lia.
    + apply N.compare_gt_iff. apply num_lt; auto. lia.
Qed.

Lemma enc_compare r p p' : part_ok r p -> part_ok r p' -> (enc r p ?= enc r p')%N = part_compare p p'.
Proof.
  destruct p as [l x], p' as [l' x']. intros (L & B & X) (L' & B' & X'). unfold enc, part_compare. cbn [fst snd] in *.
  rewrite <- (num_compare l l' 0 B B') by congruence. set (m := (2 ^ N.of_nat (r mod 8))%N) in *.
  destruct (N.compare_spec (num l 0) (num l' 0)) as [E|E|E].
  - rewrite E. destruct (Nat.compare_spec x x'); [subst; apply N.compare_refl|apply N.compare_lt_iff; lia|apply N.compare_gt_iff; lia].
  - apply N.compare_lt_iff. nia.
  - apply N.compare_gt_iff. nia.
Qed.
Lemma part_compare_refl p : part_compare p p = Eq.
Proof. unfold part_compare. now rewrite bcompare_refl, Nat.compare_refl. Qed.

(** ** Comparing a stored suffix *)
Lemma ones_mask r : 1 <= r -> r <= 64 -> sub64 (shlv 1 (N.of_nat r)) 1 = N.ones (N.of_nat r).
Proof.
  intros R1 R8. assert (X : In r (seq 1 64)) by (apply in_seq; lia). cbn [seq In] in X.
  repeat (destruct X as [<-|X]; [reflexivity|]). destruct X.
Qed.

Lemma extract_any fp t h r key level s real : 1 <= r -> r <= 64 -> t = RealSuffix \/ t = MixedSuffix -> wf_bytes key = true ->
  constructSuffix fp key level t r h = Ok s -> constructRealSuffix key level r = Ok real ->
  (if suffixType_eqb t MixedSuffix then extractRealSuffix s r else s) = real.
Proof.
  intros R1 R2 T W E ER. destruct T as [->| ->]; cbn [suffixType_eqb constructSuffix] in *.
  - rewrite ER in E. now apply Ok_eq in E.
  - unfold constructMixedSuffix in E. rewrite ER in E. cbn [bind] in E. apply Ok_eq in E. subst s.
    assert (B : (real < 2 ^ N.of_nat r)%N) by (eapply constructRealSuffix_bound; eauto).
    unfold extractRealSuffix. rewrite ones_mask, N.land_ones by auto. transitivity (real mod 2 ^ N.of_nat r)%N; [|now apply N.mod_small].
    apply N.bits_inj. intros i. destruct (N.lt_ge_cases i (N.of_nat r)) as [L|L].
    + rewrite !N.mod_pow2_bits_low by auto. rewrite N.lor_spec.
      unfold shlv. destruct (N.of_nat r <? 64)%N eqn:E64; [|rewrite N.bits_0; reflexivity]. unfold shl64, w64. change two64 with (2 ^ 64)%N.
      rewrite N.mod_pow2_bits_low by lia. rewrite N.shiftl_spec_low by auto. reflexivity.
    + now rewrite !N.mod_pow2_bits_high by auto.
Qed.

Lemma topbits_0 l : wf_bytes l = true -> topbits 0 l = 0%N.
Proof.
  intros W. destruct l as [|b l]; [reflexivity|]. cbn [topbits]. apply N.div_small. cbn [wf_bytes forallb] in W. apply andb_true_iff in W as [W _].
  unfold is_byte in W; apply Nat.ltb_lt in W. change (2 ^ N.of_nat (8 - 0))%N with 256%N. lia.
Qed.
Lemma wf_skipn n l : wf_bytes l = true -> wf_bytes (skipn n l) = true.
Proof. unfold wf_bytes. rewrite !forallb_forall. intros H x Hx. apply H. rewrite <- (firstn_skipn n l). apply in_or_app. auto. Qed.

(** The result of Compare for an order: couldBePositive stands for undecided. *)
Definition zcmp (o : comparison) : Z := match o with Lt => (-1)%Z | Eq => couldBePositive | Gt => 1%Z end.

Lemma real_or_zero_0 L k : wf_bytes k = true -> real_or_zero L 0 k = ([], 0).
Proof.
  intros W. unfold real_or_zero, real_part. cbn [Nat.leb Nat.div Nat.modulo]. change (0 / 8) with 0. change (0 mod 8) with 0. cbn [seq map Nat.sub]. f_equal.
  apply Nat.div_small. change (2 ^ 8) with 256. now apply nth_byte.
Qed.

Section Cmp.
Variable fp : bytes -> N.
Variable c : config.
Hypothesis CO : cfg_ok c.

Lemma suffix_compare_verdict xv its j it q lv : sx_rep fp c xv its -> nth_error its j = Some it ->
  wf_bytes (fst (i_kv it)) = true -> wf_bytes q = true ->
  suffix_compare xv q j lv = Ok (zcmp (part_compare (real_or_zero (i_depth it + 1) (c_realLen c) (fst (i_kv it))) (real_or_zero lv (c_realLen c) q))).
Proof.
  intros SX Hj Wk Wq. set (k := fst (i_kv it)) in *. set (dv := i_depth it + 1) in *.
  unfold suffix_compare. assert (SX0 := SX). destruct SX as ((XT & XN) & X). rewrite XT in *.
  destruct (suffixType_eqb (c_type c) NoneSuffix || suffixType_eqb (c_type c) HashSuffix) eqn:CT.
  { rewrite <- orb_assoc, CT, orb_true_r. assert (E : c_realLen c = 0). { destruct CO as [CT' _]. rewrite CT' in CT.
    destruct (Nat.eqb (c_hashLen c) 0), (Nat.eqb_spec (c_realLen c) 0); cbn in CT; auto; discriminate. }
    rewrite E, !real_or_zero_0 by auto. reflexivity. }
  apply orb_false_iff in CT as [C2 C3].
  assert (NT : c_type c <> NoneSuffix) by (intros E; rewrite E in C2; discriminate).
  assert (TT : c_type c = RealSuffix \/ c_type c = MixedSuffix) by (destruct (c_type c); auto; discriminate).
  destruct (X NT) as (X1 & X2 & X3). rewrite X2.
  assert (R1 : 1 <= c_realLen c <= 64).
  { destruct CO as [CT CL]. unfold c_suffixLen in CL. split; [|lia]. destruct (c_realLen c) eqn:ER; [|lia]. exfalso. rewrite CT in TT. destruct (c_hashLen c); cbn in TT; destruct TT; discriminate. }
  assert (C1 : Nat.leb (bv_numBits (xv_bv xv)) (j * xv_suffixLen xv) = false).
  { apply Nat.leb_gt. destruct X3 as [-> _]. rewrite sufbits_length, map_length. assert (j < length its) by (apply nth_error_Some; congruence).
    unfold xv_suffixLen, c_suffixLen. rewrite X1, X2. nia. }
  pose proof (suffix_read_stored fp c CO xv its j it) as SRd. rewrite (SRd SX0 NT Hj Wk). clear SRd. rewrite C1, C2, C3. cbn [bind orb].
  assert (SF : constructSuffix fp k dv (c_type c) (c_realLen c) (c_hashLen c) = Ok (sufv fp c it)) by apply sfx_spec.
  pose proof (real_val dv (c_realLen c) k Wk (proj1 R1) (proj2 R1)) as RV.
  rewrite (extract_any fp _ _ _ k dv _ _ (proj1 R1) (proj2 R1) TT Wk SF RV). rewrite (real_val lv (c_realLen c) q Wq (proj1 R1) (proj2 R1)). cbn [bind].
  rewrite <- (enc_compare (c_realLen c)) by (apply real_or_zero_ok; auto). set (a := enc _ _). set (b := enc _ _).
  destruct (N.eqb_spec a 0) as [->|A0], (N.eqb_spec b 0) as [->|B0]; cbn [andb orb]; try reflexivity.
  - destruct (N.compare_spec 0 b); try reflexivity; lia.
  - destruct (N.ltb_spec a 0); [lia|]. destruct (N.eqb_spec a 0); [lia|]. destruct (N.compare_spec a 0); try reflexivity; lia.
  - destruct (N.ltb_spec a b), (N.eqb_spec a b), (N.compare_spec a b); try reflexivity; lia.
Qed.
End Cmp.

(** ** Up to eight bits the verdict respects the order of the keys *)
Lemma part_topbits r L L' k q : r <= 8 -> wf_bytes k = true -> wf_bytes q = true ->
  part_compare (real_or_zero L r k) (real_or_zero L' r q) = (topbits r (skipn L k) ?= topbits r (skipn L' q))%N.
Proof.
  intros R8 Wk Wq. destruct r as [|r'].
  - rewrite !real_or_zero_0, !topbits_0 by (auto; apply wf_skipn; auto). reflexivity.
  - set (r := S r') in *. assert (1 <= r) by (unfold r; lia).
    rewrite <- (enc_compare r) by (apply real_or_zero_ok; auto).
    assert (E : forall M key, wf_bytes key = true -> enc r (real_or_zero M r key) = topbits r (skipn M key)).
    { intros M key W. pose proof (real_val M r key W ltac:(lia) ltac:(lia)) as E. rewrite real8_spec in E by auto. apply Ok_eq in E. auto. }
    now rewrite !E by auto.
Qed.

Lemma verdict_order r lv k q : r <= 8 -> wf_bytes k = true -> wf_bytes q = true -> firstn lv k = firstn lv q ->
  (verdict r lv k q = Lt -> blt k q) /\ (verdict r lv k q = Gt -> blt q k) /\
  (verdict r lv k q = Eq -> topbits r (skipn lv k) = topbits r (skipn lv q)).
Proof.
  intros R8 Wk Wq FN. unfold verdict. rewrite part_topbits by auto.
  assert (SP : forall a b, firstn lv a = firstn lv b -> blt (skipn lv a) (skipn lv b) -> blt a b).
  { intros a b E H. rewrite <- (firstn_skipn lv a), <- (firstn_skipn lv b), E. unfold blt. now rewrite bcompare_app. }
  split; [|split]; intros H.
  - apply N.compare_lt_iff in H. apply SP; auto. now apply (topbits_lt r).
  - apply N.compare_gt_iff in H. apply SP; auto. now apply (topbits_lt r).
  - now apply N.compare_eq_iff in H.
Qed.
