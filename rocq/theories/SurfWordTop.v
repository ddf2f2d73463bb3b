(** * SurfWordTop: Build and Get with uint32 arithmetic, up to 2^23 keys and 4 GiB of values. *)
From Verif Require Import Base BitsModel BitsFacts VecModel SurfModel SurfWord VecProofs VecProofs2 SurfTrie SurfBuild SurfDense SurfEnc SurfBuildTop SurfSpec SurfTop SurfGet SurfSize SurfMarshalProofs
  SurfAlias SurfAliasProofs SurfWordProofs SurfWordBuild SurfWordBuild2 SurfWordLim SurfWordSpec.

Lemma buildDense_keep : forall todo l b b', buildDense_loop todo l b = Ok b' ->
  b_levels b' = b_levels b /\ b_sparseStart b' = b_sparseStart b /\ b_valueSize b' = b_valueSize b /\ b_hashLen b' = b_hashLen b /\ b_realLen b' = b_realLen b.
Proof.
  induction todo as [|todo IH]; intros l b b' H; cbn [buildDense_loop] in H; [apply OkI in H; now subst|].
  apply bindI in H as (lv & _ & H). cbv zeta in H. apply bindI in H as (x1 & _ & H). apply bindI in H as (x2 & _ & H). apply bindI in H as (x3 & _ & H).
  apply bindI in H as (((y1 & y2) & y3) & _ & H). apply bindI in H as (z1 & _ & H). apply bindI in H as (z2 & _ & H). apply bindI in H as (z3 & _ & H).
  apply IH in H. exact H.
Qed.

Section Sums.
Variables (fp : bytes -> N) (c : config).
Lemma sum_nodes lvs NSS : lreps fp c lvs NSS -> nsum (map lv_nodeCount lvs) = length (concat NSS).
Proof. induction 1 as [|lv ns lvs NSS R _ IH]; [reflexivity|]. cbn [map concat]. rewrite app_length, <- IH, <- (r_count _ _ _ _ _ R). reflexivity. Qed.
Lemma sum_items lvs NSS : lreps fp c lvs NSS -> nsum (map numItems lvs) = length (flat_map items (concat NSS)).
Proof.
  induction 1 as [|lv ns lvs NSS R _ IH]; [reflexivity|]. cbn [map concat]. rewrite flat_map_app, app_length, <- IH. pose proof (r_labels _ _ _ _ _ R) as L.
  rewrite app_nil_r in L. unfold nsum. cbn [fold_right]. unfold numItems at 1. rewrite L, map_length. reflexivity.
Qed.
Lemma sum_suffix k lvs NSS : lreps fp c lvs NSS -> nsum (map (fun lv => lv_suffixCount lv * k) lvs) = length (leaves (concat NSS)) * k.
Proof.
  induction 1 as [|lv ns lvs NSS R _ IH]; [reflexivity|]. cbn [map concat]. rewrite leaves_app, app_length, Nat.mul_add_distr_r, <- IH. pose proof (r_sufn _ _ _ _ _ R) as L.
  rewrite app_nil_r in L. unfold nsum. cbn [fold_right]. now rewrite L.
Qed.
Lemma all_lim lvs NSS M : lreps fp c lvs NSS -> length (concat NSS) <= M -> length (flat_map items (concat NSS)) <= M -> lim M -> Forall lvlim lvs.
Proof.
  intros R HN HI HM. pose proof (sum_nodes _ _ R) as S1. pose proof (sum_items _ _ R) as S2. pose proof (sum_suffix 1 _ _ R) as S3.
  assert (S4 : length (leaves (concat NSS)) <= length (flat_map items (concat NSS))) by apply filter_length_le.
  apply Forall_forall. intros lv H. pose proof (nsum_in _ _ (in_map lv_nodeCount _ _ H)). pose proof (nsum_in _ _ (in_map numItems _ _ H)) as I2.
  pose proof (nsum_in _ _ (in_map (fun lv => lv_suffixCount lv * 1) _ _ H)) as I3. cbn beta in I3. unfold numItems at 1 in I2. unfold lvlim. fit.
Qed.
Lemma ivalues_length its : Forall (leaf_ok c) its -> length (flat_map (ivalue c) its) = length its * c_valueSize c.
Proof. induction 1 as [|y l (_ & Hy) _ IH]; [reflexivity|]. cbn [flat_map length]. rewrite app_length, Hy, IH. reflexivity. Qed.
Lemma all_values lvs NSS : lreps fp c lvs NSS -> Forall (leaf_ok c) (leaves (concat NSS)) -> length (concat (map lv_values lvs)) = length (leaves (concat NSS)) * c_valueSize c.
Proof.
  induction 1 as [|lv ns lvs NSS R _ IH]; intros F; [reflexivity|]. cbn [map concat] in *. rewrite leaves_app, !app_length, Nat.mul_add_distr_r. rewrite leaves_app in F. apply Forall_app in F as (F1 & F2).
  rewrite IH by auto. pose proof (r_vals _ _ _ _ _ R) as L. rewrite app_nil_r in L. rewrite L. fold (leaves ns). rewrite ivalues_length by auto. reflexivity.
Qed.
End Sums.

Lemma lreps_firstn fp c k lvs NSS : lreps fp c lvs NSS -> lreps fp c (firstn k lvs) (firstn k NSS).
Proof. intros R. revert k. induction R; intros [|k]; constructor; auto. apply IHR. Qed.
Lemma lreps_skipn fp c k lvs NSS : lreps fp c lvs NSS -> lreps fp c (skipn k lvs) (skipn k NSS).
Proof. intros R. revert k. induction R; intros [|k]; try constructor; auto. apply IHR. Qed.

Lemma max_key keys : Forall shortkey keys -> exists D, (N.of_nat D < 536870912)%N /\ Forall (fun k => length k <= D) keys.
Proof.
  induction 1 as [|k keys K _ (D & HD & F)]; [exists 0; split; auto; lia|]. exists (Nat.max (length k) D). unfold shortkey in K. split; [lia|].
  constructor; [lia|]. eapply Forall_impl; [|exact F]. cbn. lia.
Qed.

Theorem build32_gen fp vs h r keys vals hint fuel : valid_input vs h r keys vals -> Forall (fun k => length k < fuel) keys ->
  (N.of_nat (length keys) < 8388608)%N -> Forall shortkey keys ->
  exists s b', surf_build fp fuel (newBuilder vs h r) keys vals hint = Ok (s, b') /\
    lreps fp (mkcfg vs h r) (b_levels b') (trie (combine keys vals)) /\
    (vals_ok (firstn (b_sparseStart b') (b_levels b')) vs -> vals_ok (skipn (b_sparseStart b') (b_levels b')) vs ->
     surf_build32 fp fuel (newBuilder vs h r) keys vals hint = Ok s).
Proof.
  intros V HFu SM SK. destruct (surf_build_full fp vs h r keys vals hint fuel V HFu) as (s & b' & lvs & E & RP & R & EL & ES & E3 & E4).
  exists s, b'. split; [exact E|]. split; [now rewrite EL|]. intros VO1 VO2.
  destruct (built_rep fp vs h r keys vals hint s V) as (_ & _ & W & CT & _ & MF & _). { exists fuel, b'. auto. }
  assert (LK : length (combine keys vals) = length keys) by (rewrite <- MF at 2; symmetry; apply map_length).
  pose proof (items_total _ W) as IT. pose proof (nodes_le _ W) as NT. pose proof (leaves_total _ W) as LT. pose proof (psum_total _ W) as PT. rewrite LK in *. rewrite MF in PT.
  set (NSS := trie (combine keys vals)) in *. set (c := mkcfg vs h r) in *.
  assert (LIM : Forall lvlim lvs) by (apply (all_lim fp c lvs NSS (2 * length keys) R); [lia|lia|fit]).
  assert (SL : h + r <= 64) by apply V.
  assert (NNE : Forall (fun L => L <> []) NSS) by (apply Forall_forall; intros L HL; eapply blevels_ne; exact HL).
  assert (LL : length lvs = length NSS) by (eapply Forall2_length; exact R).
  assert (LN : length NSS <= length (concat NSS)).
  { clear - NNE. induction NNE as [|L R HL _ IH]; [cbn; lia|]. cbn [concat length]. rewrite app_length. destruct L; [congruence|]. cbn [length]. lia. }
  pose proof (sum_nodes _ _ _ _ R) as S1.
  unfold surf_build in E. unfold surf_build32. apply bindI in E as (kvs & EK & E). rewrite EK. cbn [bind].
  rewrite zip_kvs_combine in EK by apply V. apply OkI in EK. subst kvs.
  apply bindI in E as (lv1 & EB & E). cbv zeta in E. apply bindI in E as (b1 & ED & E). apply bindI in E as (pv & EP & E).
  apply bindI in E as (ld & EL1 & E). apply bindI in E as (ls & EL2 & E). apply OkI in E.
  assert (b1 = b') by (now apply (f_equal snd) in E). assert (ES2 : mkSurf ld ls = s) by (now apply (f_equal fst) in E). clear E. subst b1.
  pose proof (buildDense_keep _ _ _ _ ED) as (K1 & K2 & K3 & K4 & K5). cbn [b_levels b_sparseStart b_valueSize b_hashLen b_realLen newBuilder] in K1, K2, K3, K4, K5.
  rewrite EL in K1. subst lv1.
  destruct (max_key keys SK) as (D & HD & FD).
  assert (SH : shorts D (combine keys vals)). { unfold shorts. rewrite <- MF, Forall_map in FD. exact FD. }
  assert (CH : c_hashLen (b_config (newBuilder vs h r)) + c_realLen (b_config (newBuilder vs h r)) <= 64) by exact SL.
  destruct (buildNodes_sim fp _ CH D HD fuel (combine keys vals) 0 0 0 (b_levels (newBuilder vs h r)) SH (Nat.le_0_l _) ltac:(constructor) _ EB) as (_ & _ & G).
  rewrite (G LIM). cbn [bind]. cbv zeta. change (b_hashLen (newBuilder vs h r)) with h in *. change (b_realLen (newBuilder vs h r)) with r in *. change (b_valueSize (newBuilder vs h r)) with vs in *.
  rewrite (add32_small h r) by fit. set (cut := determineCutoffLevel lvs (length keys) (h + r) hint) in *.
  destruct RP as (CL & _ & _ & WF & LD & LS). rewrite (w32_small cut) by fit.
  rewrite (dense32_ok _ _ _ b'); [|exact LIM|constructor|exact ED]. cbn [bind].
  assert (FP : fits32 (length (concat (map nprefix (concat NSS))))). { rewrite psum_length. eapply fits32_le; [exact PT|apply V]. }
  destruct (pre_init fp c lvs NSS R FP) as (pv' & EP' & RPV).
  rewrite (pv_init32 _ _ _ _ _ EP' RPV) by (rewrite S1; fit). cbn [bind].
  assert (EC : concat NSS = concat (firstn cut NSS) ++ concat (skipn cut NSS)) by (rewrite <- concat_app, firstn_skipn; reflexivity).
  assert (LD1 : ld_rep fp c ld (b_sparseStart b') (concat (firstn cut NSS))) by (rewrite ES; subst s; exact LD).
  assert (LS1 : ls_rep fp c ls (length NSS) (b_sparseStart b') (concat (firstn cut NSS)) (concat (skipn cut NSS))) by (rewrite ES; subst s; exact LS).
  assert (LC : length (leaves (concat (firstn cut NSS))) + length (leaves (concat (skipn cut NSS))) = length keys) by (rewrite EC, leaves_app, app_length in LT; exact LT).
  assert (IC : length (flat_map items (concat (firstn cut NSS))) + length (flat_map items (concat (skipn cut NSS))) = length (flat_map items (concat NSS))) by (rewrite EC, flat_map_app, app_length; reflexivity).
  assert (NC : length (concat (firstn cut NSS)) + length (concat (skipn cut NSS)) = length (concat NSS)) by (rewrite EC, app_length; reflexivity).
  assert (SLT : forall x, x <= length keys -> fits32 (x * (h + r))). { intros x Hx. assert (x * (h + r) <= length keys * 64) by nia. fit. }
  rewrite (ld_init32_ok fp c _ _ _ EL1 LD1); rewrite ?K3, ?K4, ?K5, ?EL; auto; try fit.
  2:{ rewrite K2. pose proof (sum_nodes _ _ _ _ (lreps_firstn _ _ cut _ _ R)). fit. }
  2:{ rewrite K2, (sum_suffix fp c _ _ _ (lreps_firstn _ _ cut _ _ R)). apply SLT. lia. }
  2:{ rewrite <- EL. exact VO1. }
  cbn [bind]. rewrite (ls_init32_ok fp c _ _ _ _ _ EL2 LS1); rewrite ?K3, ?K4, ?K5, ?EL; auto; try fit.
  - cbn [bind]. now rewrite ES2.
  - rewrite K2, (sum_items fp c _ _ (lreps_skipn _ _ cut _ _ R)). fit.
  - rewrite K2, (sum_suffix fp c _ _ _ (lreps_skipn _ _ cut _ _ R)). apply SLT. lia.
  - rewrite <- EL. exact VO2.
Qed.

(** Values of less than 4 GiB in total. *)
Theorem build32_small fp vs h r keys vals hint fuel : valid_input vs h r keys vals -> Forall (fun k => length k < fuel) keys ->
  (N.of_nat (length keys) < 8388608)%N -> Forall shortkey keys -> fits32 (length keys * vs) ->
  exists s b', surf_build fp fuel (newBuilder vs h r) keys vals hint = Ok (s, b') /\ surf_build32 fp fuel (newBuilder vs h r) keys vals hint = Ok s.
Proof.
  intros V HFu SM SK FV. destruct (build32_gen fp vs h r keys vals hint fuel V HFu SM SK) as (s & b' & E & R & G). exists s, b'. split; auto.
  destruct (built_rep fp vs h r keys vals hint s V) as (_ & _ & W & _ & LO & MF & _). { exists fuel, b'. auto. }
  pose proof (leaves_total _ W) as LT. assert (LK : length (combine keys vals) = length keys) by (rewrite <- MF at 2; symmetry; apply map_length).
  pose proof (all_values _ _ _ _ R LO) as AV. rewrite LT, LK in AV. change (c_valueSize (mkcfg vs h r)) with vs in AV.
  set (k := b_sparseStart b') in *. rewrite <- (firstn_skipn k (b_levels b')), map_app, concat_app, app_length in AV.
  apply G; apply vv_init32; fit.
Qed.

Theorem built32_iff fp vs h r keys vals hint s : valid_input vs h r keys vals ->
  (N.of_nat (length keys) < 8388608)%N -> Forall shortkey keys -> fits32 (length keys * vs) ->
  built32 fp vs h r keys vals hint s <-> built fp vs h r keys vals hint s.
Proof.
  intros V SM SK FV. split.
  - intros (fuel & HF & E). destruct (build32_small fp vs h r keys vals hint fuel V HF SM SK FV) as (s' & b' & E1 & E2). rewrite E2 in E. apply OkI in E. subst s'. exists fuel, b'. auto.
  - intros (fuel & b & HF & E). destruct (build32_small fp vs h r keys vals hint fuel V HF SM SK FV) as (s' & b' & E1 & E2). rewrite E1 in E. apply OkI in E.
    assert (s' = s) by (now apply (f_equal fst) in E). subst s'. exists fuel. auto.
Qed.

Lemma value_get32 vv pos v : fits32 (length (vv_bytes vv)) -> valueVector_get vv pos = Ok v -> valueVector_get32 vv pos = Ok v.
Proof.
  intros F H. unfold valueVector_get, valueVector_get32 in *. cbv zeta in *. pose proof H as H0. unfold slice in H0. destruct (Nat.leb_spec (pos * vv_valueSize vv) (pos * vv_valueSize vv + vv_valueSize vv)); [|discriminate].
  destruct (Nat.leb_spec (pos * vv_valueSize vv + vv_valueSize vv) (length (vv_bytes vv))); [|discriminate]. rewrite mul32_small by fit. now rewrite add32_small by fit.
Qed.
Theorem get32_same fp vs h r keys vals hint s q : valid_input vs h r keys vals -> built fp vs h r keys vals hint s ->
  (N.of_nat (length keys) < 8388608)%N -> fits32 (length keys * vs) -> wf_bytes q = true -> shortkey q -> surf_get32 fp s q = surf_get fp s q.
Proof.
  intros V B SM FV WQ SQ. destruct (built_lim fp vs h r keys vals hint s V B SM) as (L1 & L2).
  destruct (get_total fp vs h r keys vals hint s q V B WQ) as (a & G). rewrite G. rewrite get_find in G. apply bindI in G as (x & E & G).
  rewrite (get32_find fp s q x L1 L2 SQ E). destruct x as [(p, pos)|]; auto. apply bindI in G as (v & EV & G). rewrite (value_get32 _ _ v); auto.
  destruct (built_rep fp vs h r keys vals hint s V B) as (cut & RP & W & _ & LO & MF & _). destruct RP as (_ & _ & _ & _ & LD & LS).
  pose proof (leaves_total _ W) as LT. assert (LK : length (combine keys vals) = length keys) by (rewrite <- MF at 2; symmetry; apply map_length). rewrite LK in LT.
  set (NSS := trie (combine keys vals)) in *. assert (EC : concat NSS = concat (firstn cut NSS) ++ concat (skipn cut NSS)) by (rewrite <- concat_app, firstn_skipn; reflexivity).
  rewrite EC, leaves_app in LT, LO. rewrite app_length in LT. apply Forall_app in LO as (LO1 & LO2).
  assert (VL : forall its, Forall (leaf_ok (mkcfg vs h r)) its -> length (flat_map (ivalue (mkcfg vs h r)) its) = length its * vs) by (intros its; apply ivalues_length).
  destruct p; cbn [part_values].
  - destruct (ldr_val _ _ _ _ _ LD) as (_ & ->). rewrite VL by auto. eapply fits_le; [|exact FV]. nia.
  - destruct (lsr_val _ _ _ _ _ _ _ LS) as (_ & ->). rewrite VL by auto. eapply fits_le; [|exact FV]. nia.
Qed.

Theorem stored32 fp vs h r keys vals hint : valid_input vs h r keys vals ->
  (N.of_nat (length keys) < 8388608)%N -> Forall shortkey keys -> fits32 (length keys * vs) ->
  exists s, built32 fp vs h r keys vals hint s /\
    forall i k v, nth_error keys i = Some k -> nth_error vals i = Some v -> surf_get32 fp s k = Ok (Some (firstn vs v)).
Proof.
  intros V SM SK FV. assert (FU : exists fuel, Forall (fun k => length k < fuel) keys).
  { destruct (max_key keys SK) as (D & _ & F). exists (S D). eapply Forall_impl; [|exact F]. cbn. lia. }
  destruct FU as (fuel & HF). destruct (build32_small fp vs h r keys vals hint fuel V HF SM SK FV) as (s & b' & E1 & E2).
  assert (B : built fp vs h r keys vals hint s) by (exists fuel, b'; auto). exists s. split; [exists fuel; auto|]. intros i k v Hk Hv.
  rewrite (get32_same fp vs h r keys vals hint s k V B SM FV).
  - eapply get_stored; eauto.
  - pose proof (v_byte _ _ _ _ _ V) as F. rewrite Forall_forall in F. apply F. eapply nth_error_In; eauto.
  - rewrite Forall_forall in SK. apply SK. eapply nth_error_In; eauto.
Qed.
