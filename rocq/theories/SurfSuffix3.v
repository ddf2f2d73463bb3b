(** * Real suffixes compare like the keys they come from (up to eight bits). *)
From Verif Require Import Base BitsModel BitsFacts VecModel VecProofs VecProofs2 SurfModel SurfSuffix SurfEnc SurfSuffix2.

(** The leading [r] bits of the byte after the first [level]; 0 if there is none. *)
Definition topbits (r : nat) (rest : bytes) : N :=
  match rest with [] => 0%N | b :: _ => (N.of_nat b / 2 ^ N.of_nat (8 - r))%N end.

Lemma real8_spec r key level : 1 <= r -> r <= 8 -> wf_bytes key = true ->
  constructRealSuffix key level r = Ok (topbits r (skipn level key)).
Proof.
  intros R1 R8 W. unfold constructRealSuffix.
  destruct (Nat.ltb_spec (length key) level) as [L|L]; cbn [orb].
  { rewrite skipn_all2 by lia. reflexivity. }
  destruct (Nat.ltb_spec ((length key - level) * 8) r) as [L2|L2]; cbn [orb].
  { rewrite skipn_all2 by lia. reflexivity. }
  assert (LL : level < length key) by lia.
  assert (SK : skipn level key = nth level key 0 :: skipn (S level) key).
  { clear -LL. revert level LL. induction key; intros [|l] LL; cbn [length] in LL; try lia; [reflexivity|]. cbn [skipn nth]. apply IHkey. lia. }
  rewrite SK. cbn [topbits].
  assert (Hb : nth level key 0 < 256).
  { unfold wf_bytes in W. rewrite forallb_forall in W. apply Nat.ltb_lt, W. now apply nth_In. }
  destruct (Nat.eq_dec r 8) as [->|N8].
  - change (8 / 8) with 1. change (8 mod 8) with 0. cbn [Nat.ltb Nat.leb Nat.sub real_suffix_loop].
    rewrite (idx_in key level 0) by lia. cbn [bind]. f_equal. change (2 ^ N.of_nat 0)%N with 1%N. now rewrite N.div_1_r.
  - replace (r / 8) with 0 by lia. replace (r mod 8) with r by lia. cbn [bind]. change (Nat.ltb 0 0) with false. cbn [bind].
    destruct (Nat.ltb_spec 0 r); [|lia]. rewrite Nat.add_0_r, (idx_in key level 0) by lia. cbn [bind]. f_equal.
    unfold shl64, shr64. rewrite N.shiftl_0_l, N.shiftr_div_pow2. replace (w64 0%N) with 0%N by reflexivity. rewrite N.add_0_l.
    unfold w64. rewrite N.mod_small; [reflexivity|].
    assert (N.of_nat (nth level key 0%nat) / 2 ^ N.of_nat (8 - r) <= N.of_nat (nth level key 0%nat))%N.
    { apply N.div_le_upper_bound; [apply N.pow_nonzero; lia|]. assert (0 < 2 ^ N.of_nat (8 - r))%N by (apply N.neq_0_lt_0, N.pow_nonzero; lia). nia. }
    change two64 with 18446744073709551616%N. lia.
Qed.

Lemma topbits_lt r a b : (topbits r a < topbits r b)%N -> blt a b.
Proof.
  destruct a as [|x a], b as [|y b]; cbn [topbits].
  - lia.
  - intros _. reflexivity.
  - intros H. destruct (N.nlt_0_r _ H).
  - intros H. assert (N.of_nat x < N.of_nat y)%N.
    { destruct (N.lt_ge_cases (N.of_nat x) (N.of_nat y)) as [|G]; auto. apply (N.div_le_mono _ _ (2 ^ N.of_nat (8 - r))) in G; [lia|apply N.pow_nonzero; lia]. }
    unfold blt. cbn [bcompare]. destruct (Nat.compare_spec x y); auto; lia.
Qed.

Section S.
Variable fp : bytes -> N.
Variables (t : SuffixType) (h r : nat).
Hypothesis T : t = RealSuffix \/ t = MixedSuffix.
Hypothesis R1 : 1 <= r.
Hypothesis R8 : r <= 8.

Lemma extract_spec key level s : wf_bytes key = true -> constructSuffix fp key level t r h = Ok s ->
  (if suffixType_eqb t MixedSuffix then extractRealSuffix s r else s) = topbits r (skipn level key).
Proof.
  intros W E. destruct T as [->| ->]; cbn [suffixType_eqb constructSuffix] in *.
  - rewrite real8_spec in E by auto. now apply Ok_eq in E.
  - unfold constructMixedSuffix in E. rewrite real8_spec in E by auto. cbn [bind] in E. apply Ok_eq in E. subst s.
    assert (B : (topbits r (skipn level key) < 2 ^ N.of_nat r)%N) by (apply (constructRealSuffix_bound key level r); auto using real8_spec).
    unfold extractRealSuffix.
    assert (M : sub64 (shlv 1 (N.of_nat r)) 1 = N.ones (N.of_nat r)).
    { clear -R1 R8. assert (X : In r (seq 1 8)) by (apply in_seq; lia). cbn [seq In] in X.
      repeat (destruct X as [<-|X]; [reflexivity|]). destruct X. }
    rewrite M, N.land_ones. transitivity (topbits r (skipn level key) mod 2 ^ N.of_nat r)%N; [|now apply N.mod_small].
    apply N.bits_inj. intros i. destruct (N.lt_ge_cases i (N.of_nat r)) as [L|L].
    + rewrite !N.mod_pow2_bits_low by auto. rewrite N.lor_spec.
      unfold shlv. destruct (N.of_nat r <? 64)%N eqn:E64; [|lia]. unfold shl64, w64. change two64 with (2 ^ 64)%N.
      rewrite N.mod_pow2_bits_low by lia. rewrite N.shiftl_spec_low by auto. reflexivity.
    + now rewrite !N.mod_pow2_bits_high by auto.
Qed.

Lemma suffix_compare_order v i level k q s cmp : xv_type v = t -> xv_realLen v = r ->
  wf_bytes k = true -> wf_bytes q = true -> suffix_read v i = Ok s -> constructSuffix fp k level t r h = Ok s ->
  firstn level k = firstn level q -> suffix_compare v q i level = Ok cmp ->
  (cmp = (-1)%Z -> blt k q) /\ (cmp = 1%Z -> blt q k) /\ (cmp = (-1)%Z \/ cmp = 1%Z \/ cmp = couldBePositive).
Proof.
  intros ET ER Wk Wq Rd Cs Fn C. unfold suffix_compare in C. rewrite ET, ER, Rd in C.
  destruct (Nat.leb _ _ || _ || _).
  { apply Ok_eq in C. subst cmp. repeat split; auto; discriminate. }
  cbn [bind] in C. rewrite (extract_spec k level s Wk Cs), real8_spec in C by auto. cbn [bind] in C.
  assert (SP : forall a b, firstn level a = firstn level b -> blt (skipn level a) (skipn level b) -> blt a b).
  { intros a b E H. rewrite <- (firstn_skipn level a), <- (firstn_skipn level b), E. unfold blt. now rewrite bcompare_app. }
  set (a := topbits r (skipn level k)) in *. set (b := topbits r (skipn level q)) in *.
  assert (LT : (a < b)%N -> blt k q) by (intros; apply SP; auto; now apply (topbits_lt r)).
  assert (GT : (b < a)%N -> blt q k) by (intros; apply SP; auto; now apply (topbits_lt r)).
  destruct (N.eqb_spec a 0), (N.eqb_spec b 0); cbn [andb orb] in C;
    destruct (N.ltb_spec a b); cbn [andb orb] in C; try destruct (N.eqb_spec a b); apply Ok_eq in C; subst cmp;
    (split; [intros; try discriminate; apply LT; lia|split; [intros; try discriminate; apply GT; lia|unfold couldBePositive; auto]]).
Qed.
End S.

Theorem compare_respects_order fp c : cfg_ok c -> 1 <= c_realLen c -> c_realLen c <= 8 -> forall groups,
  Forall (fun p => wf_bytes (fst p) = true) (concat groups) ->
  exists lvs v, Forall2 (fun g lv => insert_suffixes fp c g emptyLevel = Ok lv) groups lvs /\
    suffixVector_init (c_type c) (c_hashLen c) (c_realLen c) (map lv_suffixes lvs) (map (fun lv => lv_suffixCount lv * c_suffixLen c) lvs) = Ok v /\
    forall i k d q, nth_error (concat groups) i = Some (k, d) -> wf_bytes q = true -> firstn (d + 1) k = firstn (d + 1) q ->
      exists cmp, suffix_compare v q i (d + 1) = Ok cmp /\ (cmp = (-1)%Z -> blt k q) /\ (cmp = 1%Z -> blt q k) /\
        (cmp = (-1)%Z \/ cmp = 1%Z \/ cmp = couldBePositive).
Proof.
  intros CO R1 R8 groups W.
  assert (T : c_type c = RealSuffix \/ c_type c = MixedSuffix).
  { destruct CO as [T _]. rewrite T. destruct (Nat.eqb (c_hashLen c) 0), (Nat.eqb_spec (c_realLen c) 0); cbn; auto; lia. }
  destruct (suffixes_roundtrip fp c CO groups) as (lvs & v & F & I & S); auto.
  { destruct T as [->| ->]; discriminate. }
  exists lvs, v. split; auto. split; auto. intros i k d q Hi Wq Fn. destruct (S i k d Hi) as [RD _].
  assert (Wk : wf_bytes k = true) by (rewrite Forall_forall in W; apply (W (k, d)); eapply nth_error_In; eauto).
  assert (VT : xv_type v = c_type c /\ xv_realLen v = c_realLen c).
  { unfold suffixVector_init in I. destruct (bitVector_init _ _); try discriminate. cbn [bind] in I. apply Ok_eq in I. subst v. auto. }
  destruct VT as [VT VR]. pose proof (sfx_spec fp (c_type c) (c_hashLen c) (c_realLen c) k (d + 1)) as CS. rewrite CS in RD.
  assert (E : exists cmp, suffix_compare v q i (d + 1) = Ok cmp).
  { unfold suffix_compare. destruct (_ || _ || _); [eauto|]. rewrite RD, VR. cbn [bind]. rewrite real8_spec by auto. cbn [bind].
    repeat match goal with |- exists x, (if ?b then _ else _) = _ => destruct b; [eauto|] end. eauto. }
  destruct E as (cmp & E). exists cmp. split; auto.
  eapply (suffix_compare_order fp (c_type c) (c_hashLen c) (c_realLen c)); eauto.
Qed.
