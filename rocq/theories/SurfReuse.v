(** * A second Build on a used builder: the filter of two tries side by side. *)
From Verif Require Import Base BitsModel BitsFacts VecModel VecProofs VecProofs2 SurfModel SurfTrie SurfSpec SurfBuild SurfDense SurfEnc SurfBuildTop SurfGet SurfGet2 SurfWalk SurfSuffix SurfTop.

(** At most one of the keys begins with the first byte of [q]. *)
Definition lone (keys : list bytes) (q : bytes) : Prop :=
  forall k k', In k keys -> In k' keys -> hd_error k = hd_error q -> hd_error k' = hd_error q -> k = k'.

Notation heavy := (Forall (fun n => 2 <= length (tn_kvs n))).

Lemma setBit_length bs p bs' : setBit bs p = Ok bs' -> length bs' = length bs /\ p / 64 < length bs.
Proof.
  unfold setBit. intros H. apply bind_Ok in H as (w & H1 & H). apply upd_Ok in H as [H ->]. rewrite set_nth_length. auto.
Qed.

Lemma setLabel_length lv n p lab hc lab' hc' : setLabelAndHasChild lv n p lab hc = Ok (lab', hc') ->
  length lab' = length lab /\ n * 4 < length lab.
Proof.
  unfold setLabelAndHasChild. intros H. apply bind_Ok in H as (l & _ & H). apply bind_Ok in H as (x & H1 & H).
  apply bind_Ok in H as (b & _ & H). apply bind_Ok in H as (y & _ & H). apply Ok_eq in H. inversion H; subst.
  destruct (setBit_length _ _ _ H1) as [L1 L2]. split; auto.
  assert (n * 4 <= (n * 256 + l) / 64); [|lia]. apply Nat.div_le_lower_bound; lia.
Qed.

(** A row of four words holds one node: the second item of a later node does not fit. *)
Lemma dense_loop_row p lv : forall todo pos node lab hc ip r,
  SurfModel.dense_loop todo pos node lv lab hc ip = Ok r -> length lab = 4 ->
  pos <= p -> p < pos + todo -> readBit (lv_louds lv) p = Ok false ->
  (0 < node \/ exists q, pos <= q < p /\ readBit (lv_louds lv) q = Ok true) -> False.
Proof.
  induction todo as [|todo IH]; intros pos node lab hc ip r H HL H1 H2 HP HN; [lia|].
  cbn [SurfModel.dense_loop] in H. apply bind_Ok in H as (st & Est & H). cbn zeta in H. apply bind_Ok in H as (t & Et & H).
  destruct (Nat.eq_dec pos p) as [->|Hne].
  - rewrite HP in Est. apply Ok_eq in Est. subst st. apply Ok_eq in Et. subst t.
    apply bind_Ok in H as ([lab' hc'] & E & H). apply setLabel_length in E as [_ E].
    destruct HN as [HN|(q & HN & _)]; lia.
  - assert (HN' : 0 < (if st then S node else node) \/ exists q, S pos <= q < p /\ readBit (lv_louds lv) q = Ok true).
    { destruct HN as [HN|(q & HN & HQ)]; [left; destruct st; lia|].
      destruct (Nat.eq_dec q pos) as [->|]; [|right; exists q; split; [lia|auto]].
      rewrite HQ in Est. apply Ok_eq in Est. subst st. left. lia. }
    destruct t.
    + apply bind_Ok in H as (ip' & _ & H). eapply IH; [exact H|auto|lia|lia|auto|auto].
    + apply bind_Ok in H as ([lab' hc'] & E & H). apply setLabel_length in E as [E _]. eapply IH; [exact H|lia|lia|lia|auto|auto].
Qed.

Lemma dense_loop_len lv : forall todo pos node lab hc ip lab' hc' ip',
  SurfModel.dense_loop todo pos node lv lab hc ip = Ok (lab', hc', ip') -> length lab' = length lab.
Proof.
  induction todo as [|todo IH]; intros pos node lab hc ip lab' hc' ip' H; cbn [SurfModel.dense_loop] in H.
  - apply Ok_eq in H. inversion H; subst. reflexivity.
  - apply bind_Ok in H as (st & _ & H). cbn zeta in H. apply bind_Ok in H as (t & _ & H). destruct t.
    + apply bind_Ok in H as (ip1 & _ & H). eauto.
    + apply bind_Ok in H as ([lab1 hc1] & E & H). apply setLabel_length in E as [E _]. rewrite <- E. eauto.
Qed.

Lemma buildDense_level_len lv lab hc ip lab' hc' ip' : buildDense_level lv lab hc ip = Ok (lab', hc', ip') -> length lab' = length lab.
Proof.
  unfold buildDense_level. destruct (Nat.eqb (numItems lv) 0); [intros H; apply Ok_eq in H; inversion H; subst; reflexivity|].
  intros H. apply bind_Ok in H as (t & _ & H). apply bind_Ok in H as ([[lab1 hc1] ip1] & E & H). apply dense_loop_len in H. rewrite H.
  destruct t.
  - apply bind_Ok in E as (x & _ & E). apply Ok_eq in E. inversion E; subst. reflexivity.
  - apply bind_Ok in E as ([x y] & E1 & E). apply setLabel_length in E1 as [E1 _]. apply Ok_eq in E. inversion E; subst. auto.
Qed.

(** What buildDense leaves alone, and the size of the first row. *)
Lemma buildDense_keeps : forall todo l b b', buildDense_loop todo l b = Ok b' ->
  b_levels b' = b_levels b /\ b_config b' = b_config b /\ b_sparseStart b' = b_sparseStart b /\
  (forall w ws, b_ldLabels b = w :: ws -> exists w' ws', b_ldLabels b' = w' :: ws' /\ length w' = length w) /\
  (todo = 0 -> b' = b) /\
  (l = 0 -> 0 < todo -> b_ldLabels b = [] -> exists lv w ws, idx (b_levels b) 0 = Ok lv /\ b_ldLabels b' = w :: ws /\ length w = denseWords (lv_nodeCount lv)).
Proof.
  induction todo as [|todo IH]; intros l b b' H.
  - cbn [buildDense_loop] in H. apply Ok_eq in H. subst b'. repeat split; auto; try lia. intros w ws E. exists w, ws. auto.
  - cbn [buildDense_loop] in H. apply bind_Ok in H as (lv & Elv & H). cbn zeta in H.
    apply bind_Ok in H as (lab & E1 & H). apply bind_Ok in H as (hc & E2 & H). apply bind_Ok in H as (ip & E3 & H).
    apply bind_Ok in H as ([[lab' hc'] ip'] & E4 & H). apply bind_Ok in H as (l1 & E5 & H). apply bind_Ok in H as (l2 & E6 & H). apply bind_Ok in H as (l3 & E7 & H).
    destruct (IH _ _ _ H) as (I1 & I2 & I3 & I4 & _ & _). cbn [b_levels b_config b_sparseStart b_ldLabels] in *.
    apply upd_Ok in E5 as [E5 ->]. apply buildDense_level_len in E4.
    assert (HD : forall w ws, b_ldLabels b ++ [repeat 0%N (denseWords (lv_nodeCount lv))] = w :: ws -> 
      exists w' ws', set_nth (b_ldLabels b ++ [repeat 0%N (denseWords (lv_nodeCount lv))]) l lab' = w' :: ws' /\ length w' = length w).
    { intros w ws E. rewrite E in *. destruct l as [|l]; cbn [set_nth].
      - unfold idx in E1. cbn in E1. apply Ok_eq in E1. subst lab. eauto.
      - eauto. }
    split; [auto|]. split; [rewrite I2; reflexivity|]. split; [auto|]. split; [|split; [lia|]].
    + intros w ws E. rewrite E in HD. cbn [app] in HD. rewrite E in I4. cbn [app] in I4. destruct (HD _ _ eq_refl) as (w' & ws' & EE & LE).
      destruct (I4 _ _ EE) as (w2 & ws2 & E8 & L8). exists w2, ws2. split; [auto|]. lia.
    + intros -> _ E. rewrite E in HD, I4. cbn [app] in HD, I4. destruct (HD _ _ eq_refl) as (w' & ws' & EE & LE).
      destruct (I4 _ _ EE) as (w2 & ws2 & E8 & L8). exists lv, w2, ws2. split; [auto|]. split; [auto|]. rewrite repeat_length in LE. lia.
Qed.

Section Reuse.
Variable fp : bytes -> N.
Variable c : config.

(** With a row left over from the first Build, buildDense cannot finish. *)
Lemma buildDense_stuck todo b b' w ws lvs r1 r2 : lrep fp c (hd emptyLevel lvs) [r1; r2] [] -> 2 <= length (tn_kvs r2) ->
  b_levels b = lvs -> b_ldLabels b = w :: ws -> length w = 4 -> buildDense_loop (S todo) 0 b = Ok b' -> False.
Proof.
  intros R H2 EL EW LW H. cbn [buildDense_loop] in H. apply bind_Ok in H as (lv & Elv & H). cbn zeta in H.
  apply bind_Ok in H as (lab & E1 & H). apply bind_Ok in H as (hc & E2 & H). apply bind_Ok in H as (ip & E3 & H).
  apply bind_Ok in H as (x & E4 & _).
  rewrite EL in Elv. assert (hd emptyLevel lvs = lv) by (unfold idx in Elv; destruct lvs; [discriminate|]; cbn in Elv; now apply Ok_eq in Elv). rewrite H in R. clear H.
  rewrite EW in E1. unfold idx in E1. cbn in E1. apply Ok_eq in E1. subst lab.
  pose proof (r_wf _ _ _ _ _ R) as W. inversion W as [|? ? W1 W']; subst. inversion W' as [|? ? W2 _]; subst.
  pose proof (items_two r2 W2 H2) as I2. pose proof (items_pos r1 W1) as I1.
  assert (TOT : length (flat_map items [r1; r2]) = length (items r1) + length (items r2)) by (cbn [flat_map]; rewrite app_nil_r; apply app_length).
  assert (NI : numItems lv = length (items r1) + length (items r2)) by (rewrite (lrep_numItems _ _ _ _ _ R), app_nil_r; exact TOT).
  unfold buildDense_level in E4. rewrite NI in E4. destruct (Nat.eqb_spec (length (items r1) + length (items r2)) 0); [lia|].
  apply bind_Ok in E4 as (t & _ & E4). apply bind_Ok in E4 as ([[lab1 hc1] ip1] & E5 & E4).
  assert (L1 : length lab1 = 4).
  { destruct t.
    - apply bind_Ok in E5 as (y & _ & E5). apply Ok_eq in E5. inversion E5; subst. auto.
    - apply bind_Ok in E5 as ([y z] & E6 & E5). apply setLabel_length in E6 as [E6 _]. apply Ok_eq in E5. inversion E5; subst. lia. }
  assert (RD : forall j, j < length (items r2) -> readBit (lv_louds lv) (length (items r1) + j) = Ok (Nat.eqb j 0)).
  { intros j Hj. rewrite (louds_read _ _ _ _ _ R) by lia. f_equal.
    pose proof (louds_in [r1] r2 [] j W Hj) as X. cbn [flat_map app] in X. rewrite app_nil_r in X. exact X. }
  eapply (dense_loop_row (length (items r1) + 1)); [exact E4|exact L1|lia|lia|apply (RD 1); lia|].
  right. exists (length (items r1)). split; [lia|]. rewrite <- (Nat.add_0_r (length (items r1))) at 1. apply RD. lia.
Qed.

(** Levels of a forest of two. *)
Lemma heavy_levels : forall k F, small k F -> heavy F -> forall ns, In ns (blevels k F) -> heavy ns.
Proof.
  induction k as [|k IH]; intros F SF F2 ns Hin; [destruct Hin|]. cbn [blevels] in Hin. destruct F as [|n F']; [destruct Hin|].
  set (F := n :: F') in *. destruct Hin as [<-|Hin]; auto. apply (IH (flat_map children F)); auto.
  - now apply small_children.
  - apply Forall_forall. intros x Hx. apply in_flat_map in Hx as (m & Hm & Hx). unfold children in Hx. apply in_map_iff in Hx as (it & <- & Hit).
    apply filter_In in Hit as [_ Hc]. unfold hasc in Hc. apply Nat.ltb_lt in Hc. cbn [mkchild mknode tn_kvs]. lia.
Qed.

Lemma in_merge (n : tnode) : forall A B, In n (concat (merge A B)) -> In n (concat A) \/ In n (concat B).
Proof.
  induction A as [|a A IH]; intros [|b B]; cbn [merge]; auto. cbn [concat]. intros H.
  apply in_app_or in H as [H|H]; [apply in_app_or in H as [H|H]|]; [left|right|]; try (apply in_or_app; auto).
  destruct (IH _ H); [left|right]; apply in_or_app; auto.
Qed.

(** The sparse part of a forest: everything but the count of children of dense nodes. *)
Lemma ls_init_forest b NSS h :
  cfg_ok c -> b_config b = c -> lreps fp c (b_levels b) NSS -> h < length NSS -> Forall (fun ns => ns <> []) NSS ->
  b_sparseStart b = h -> fits32 (length (concat (map nprefix (concat (skipn h NSS))))) ->
  exists ls, ls_init b = Ok ls /\ (h = 0 -> ls_rep fp c ls (length NSS) 0 [] (concat NSS)).
Proof.
  intros CO Hc R Hh NE Es HF.
  assert (LV : length (b_levels b) = length NSS) by (eapply Forall2_length; exact R).
  unfold ls_init. rewrite Es. rewrite slice_firstn by lia. cbn [bind].
  assert (DCC : exists dc, (if Nat.eqb h 0 then Ok 0 else lv <- idx (b_levels b) h ;; sub_chk (nsum (map lv_nodeCount (firstn h (b_levels b))) + lv_nodeCount lv) 1) = Ok dc /\ (h = 0 -> dc = 0)).
  { destruct h as [|h']; [exists 0; auto|]. cbn [Nat.eqb].
    destruct (nth_error NSS (S h')) as [ns|] eqn:En; [|apply nth_error_None in En; lia].
    assert (exists lv, nth_error (b_levels b) (S h') = Some lv /\ lrep fp c lv ns []) as (lv & El & R0).
    { clear -R En. revert En. generalize (S h'). induction R as [|lv0 ns0 lvs NSS R0 R IH]; intros [|k] E; cbn in *; try discriminate.
      - inversion E; subst. eauto. - apply IH. auto. }
    rewrite (proj2 (idx_Ok (b_levels b) (S h') lv) El). cbn [bind]. rewrite (r_count _ _ _ _ _ R0).
    rewrite Forall_forall in NE. pose proof (NE ns (nth_error_In _ _ En)) as Hns. destruct ns as [|x ns]; [congruence|].
    unfold sub_chk. cbn [length]. match goal with |- exists _, (if Nat.leb ?a ?b then _ else _) = _ /\ _ => destruct (Nat.leb_spec a b); [|lia] end.
    eexists. split; [reflexivity|]. discriminate. }
  destruct DCC as (dc & DCC & DC0).
  rewrite DCC. cbn [bind]. unfold slice_from. destruct (Nat.leb_spec h (length (b_levels b))); [|lia]. cbn [bind].
  assert (R' : lreps fp c (skipn h (b_levels b)) (skipn h NSS)) by (apply Forall2_skipn; exact R).
  destruct (hasc_init _ _ _ _ R') as (v1 & V1 & RV1). rewrite V1. cbn [bind].
  destruct (louds_init _ _ _ _ R') as (v2 & V2 & RV2). rewrite V2. cbn [bind].
  assert (Hcs : b_type b = c_type c /\ b_hashLen b = c_hashLen c /\ b_realLen b = c_realLen c /\ b_valueSize b = c_valueSize c) by (rewrite <- Hc; repeat split).
  destruct Hcs as (H1 & H2 & H3 & H4). rewrite H1, H2, H3, H4.
  destruct (suf_init _ _ _ _ CO R') as (xv & X1 & X2). rewrite X1. cbn [bind].
  destruct (pre_init _ _ _ _ R' HF) as (pv & P1 & P2). rewrite P1. cbn [bind].
  eexists. split; [reflexivity|]. intros ->. cbn [skipn] in *.
  constructor; cbn [ls_height ls_startLevel ls_denseNodeCount ls_denseChildCount ls_label ls_hasChild ls_louds ls_suffixes ls_values ls_prefix]; auto.
  - exact (label_init fp c (b_levels b) NSS 0 R).
  - now apply (val_init fp).
Qed.

(** A lookup that ends at the first node. *)
Section First.
Variables (s : surf) (h : nat) (NSS : list (list tnode)) (n : tnode) (rest : list tnode) (q : bytes).
Hypothesis CO : cfg_ok c.
Hypothesis RD : ld_rep fp c (s_ld s) h (concat (firstn h NSS)).
Hypothesis RS : h = 0 -> ls_rep fp c (s_ls s) (length NSS) 0 [] (concat NSS).
Hypothesis HH : exists T, NSS = (n :: rest) :: T.
Hypothesis WF : Forall nwf (concat NSS).
Hypothesis LO : Forall (leaf_ok c) (leaves (concat NSS)).
Hypothesis PD : tn_pd n = 0.
Hypothesis Hq : wf_bytes q = true.
Hypothesis NQ : q <> [].
Hypothesis ENDS : is_prefixb (nprefix n) q = true -> match alook n q with Some it => hasc it = false | None => True end.
Hypothesis LONG : is_prefixb (nprefix n) q = true -> tn_d n < length q.

Lemma first_get f : surf_get fp s q = Ok (aget fp c (S f) h n q).
Proof.
  destruct HH as (T & EN). assert (W : nwf n) by (rewrite EN in WF; cbn [concat app] in WF; now inversion WF).
  assert (LQ : 0 < length q) by (destruct q; [congruence|cbn; lia]).
  unfold surf_get, ld_get. rewrite (ldr_h _ _ _ _ _ RD). destruct h as [|h'].
  - cbn [ld_get_loop bind]. pose proof (RS eq_refl) as R. rewrite EN in R. cbn [concat] in R.
    change ((n :: rest) ++ concat T) with ([] ++ n :: (rest ++ concat T)) in R.
    assert (WD := WF). rewrite EN in WD. cbn [concat] in WD. change ((n :: rest) ++ concat T) with ([] ++ n :: (rest ++ concat T)) in WD.
    assert (LD := LO). rewrite EN in LD. cbn [concat] in LD. change ((n :: rest) ++ concat T) with ([] ++ n :: (rest ++ concat T)) in LD.
    unfold ls_get. pose proof (s_firstLabelPos fp c _ _ _ _ _ _ n R WD) as FL. cbn [length Nat.add flat_map] in FL. rewrite FL. cbn [bind].
    assert (LE0 : Nat.leb (length q) 0 = false) by (apply Nat.leb_gt; lia).
    replace (length q) with (S (length q - 1)) at 1 by lia. cbn [ls_get_loop]. rewrite LE0.
    assert (NI : ls_prefixID (s_ls s) 0 = Ok 0) by (unfold ls_prefixID; rewrite (lsr_dn _ _ _ _ _ _ _ R); reflexivity).
    rewrite NI. cbn [bind]. pose proof (s_checkPrefix fp c _ _ _ _ _ _ n q R 0 ltac:(lia)) as CP. cbn [length Nat.add] in CP. rewrite CP. cbn [bind].
    cbn [skipn aget]. rewrite PD, LE0. cbn [skipn].
    destruct (is_prefixb (nprefix n) q) eqn:PX; cbn [negb]; [|reflexivity].
    specialize (LONG eq_refl). specialize (ENDS eq_refl).
    assert (PL : length (nprefix n) = tn_d n) by (pose proof (nprefix_length n W); lia). rewrite PL. cbn [Nat.add].
    destruct (Nat.leb_spec (length q) (tn_d n)); [lia|].
    rewrite (idx_in q (tn_d n) 0) by lia. cbn [bind].
    pose proof (s_nodeSize fp c _ _ _ _ _ _ n R WD ltac:(now right)) as NS. cbn [flat_map length] in NS. rewrite NS. cbn [bind].
    destruct (alook n q) as [it|] eqn:AL.
    2:{ destruct (s_search_no fp c _ _ _ _ _ _ n R WD (nth (tn_d n) q 0)) as (p & SE).
        - intros x Hx NT LB. assert (alook n q <> None); [|congruence]. unfold alook. intros X. pose proof (find_none _ _ X x Hx) as Y. cbn beta in Y. rewrite NT, LB, Nat.eqb_refl in Y. discriminate.
        - cbn [flat_map length] in SE. rewrite SE. reflexivity. }
    destruct (alook_split n q it AL) as (A & B & EI & TT & LB). rewrite <- LB.
    pose proof (s_search fp c _ _ _ _ _ _ n R WD A it B EI ltac:(unfold noterm; rewrite TT; reflexivity)) as SE. cbn [flat_map length Nat.add] in SE. rewrite SE. cbn [bind negb].
    pose proof (s_hasc fp c _ _ _ _ _ _ n R A it B EI) as SH. cbn [flat_map length Nat.add] in SH. rewrite SH. cbn [bind].
    rewrite ENDS. cbn [negb].
    pose proof (s_suffixPos fp c _ _ _ _ _ _ n R A it B EI ENDS) as SP. cbn [flat_map length Nat.add app] in SP. rewrite SP. cbn [bind].
    pose proof (leaves_split [] (rest ++ concat T) n A it B EI ENDS) as LS. cbn [flat_map app] in LS.
    rewrite (check_value_spec fp c CO _ _ _ _ it q (tn_d n + 1) (lsr_suf _ _ _ _ _ _ _ R) (lsr_val _ _ _ _ _ _ _ R) LD LS). reflexivity.
  - assert (EF : concat (firstn (S h') NSS) = [] ++ n :: (rest ++ concat (firstn h' T))) by (rewrite EN; reflexivity).
    pose proof RD as R. rewrite EF in R.
    assert (WD : Forall nwf ([] ++ n :: (rest ++ concat (firstn h' T)))).
    { rewrite <- EF. rewrite <- (firstn_skipn (S h') NSS), concat_app in WF. now apply Forall_app in WF. }
    assert (LD : Forall (leaf_ok c) (leaves ([] ++ n :: (rest ++ concat (firstn h' T))))).
    { rewrite <- EF. rewrite <- (firstn_skipn (S h') NSS), concat_app in LO. unfold leaves in LO |- *. rewrite flat_map_app, filter_app in LO. now apply Forall_app in LO. }
    cbn [ld_get_loop]. pose proof (d_checkPrefix fp c _ _ _ _ n q R 0 ltac:(lia)) as CP. cbn [length skipn] in CP. rewrite CP. cbn [bind aget]. rewrite PD. cbn [skipn].
    destruct (is_prefixb (nprefix n) q) eqn:PX; cbn [negb bind]; [|reflexivity].
    specialize (LONG eq_refl). specialize (ENDS eq_refl).
    assert (PL : length (nprefix n) = tn_d n) by (pose proof (nprefix_length n W); lia). rewrite PL. cbn [Nat.add Nat.mul].
    destruct (Nat.leb_spec (length q) (tn_d n)); [lia|].
    rewrite (idx_in q (tn_d n) 0) by lia. cbn [bind].
    assert (KB : nth (tn_d n) q 0 < 256) by now apply key_byte.
    pose proof (d_label fp c _ _ _ _ n R (nth (tn_d n) q 0) KB) as DL. cbn [length Nat.mul Nat.add] in DL. rewrite DL. cbn [bind]. rewrite existsb_find.
    change (find (fun it : item => noterm it && Nat.eqb (i_label it) (nth (tn_d n) q 0)) (items n)) with (alook n q).
    destruct (alook n q) as [it|] eqn:AL; cbn [negb bind]; [|reflexivity].
    destruct (alook_split n q it AL) as (A & B & EI & TT & LB).
    pose proof (d_hasc fp c _ _ _ _ n R (nth (tn_d n) q 0) KB) as DH. cbn [length Nat.mul Nat.add] in DH. rewrite DH. cbn [bind].
    assert (EH : existsb (fun it => noterm it && hasc it && Nat.eqb (i_label it) (nth (tn_d n) q 0)) (items n) = false).
    { apply not_true_is_false. intros X. apply existsb_exists in X as (x & Hx & X). rewrite !andb_true_iff in X. destruct X as [[X0 X1] X2].
      apply Nat.eqb_eq in X2. rewrite (alook_unique n q it x W AL Hx X0 X2) in X1. congruence. }
    rewrite EH, ENDS. cbn [negb]. rewrite <- LB.
    pose proof (d_suffixPos_leaf fp c _ _ _ _ n R WD A it B EI TT ENDS) as SP. cbn [length Nat.mul Nat.add flat_map app] in SP. rewrite SP. cbn [bind].
    pose proof (leaves_split [] (rest ++ concat (firstn h' T)) n A it B EI ENDS) as LS. cbn [flat_map app] in LS.
    rewrite (check_value_spec fp c CO _ _ _ _ it q (tn_d n + 1) (ldr_suf _ _ _ _ _ R) (ldr_val _ _ _ _ _ R) LD LS). reflexivity.
Qed.
End First.
End Reuse.

(* ------------------------------------------------------------------ *)
(** ** Never spinning: the dense loops return or panic. *)
Definition noHang {A} (m : res A) : Prop := m <> Hang.
Lemma noHang_bind {A B} (m : res A) (f : A -> res B) : noHang m -> (forall a, noHang (f a)) -> noHang (bind m f).
Proof. unfold noHang. destruct m; cbn [bind]; intros H H'; auto; discriminate. Qed.
Lemma noHang_Ok {A} (a : A) : noHang (Ok a). Proof. discriminate. Qed.
Lemma noHang_idx {A} (l : list A) i : noHang (idx l i).
Proof. unfold noHang, idx. destruct (nth_error l i); discriminate. Qed.
Lemma noHang_upd {A} (l : list A) i a : noHang (upd l i a).
Proof. unfold noHang, upd. destruct (Nat.ltb i (length l)); discriminate. Qed.
Lemma noHang_readBit l i : noHang (readBit l i).
Proof. unfold readBit. apply noHang_bind; [apply noHang_idx|intros; apply noHang_Ok]. Qed.
Lemma noHang_setBit l i : noHang (setBit l i).
Proof. unfold setBit. apply noHang_bind; [apply noHang_idx|intros; apply noHang_upd]. Qed.
Ltac nh := repeat first [apply noHang_Ok | apply noHang_idx | apply noHang_upd | apply noHang_readBit | apply noHang_setBit | (apply noHang_bind; [|intros]) ].
Lemma noHang_isTerm lv p : noHang (isTerminator lv p).
Proof. unfold isTerminator. nh. Qed.
Lemma noHang_setLabel lv n p lab hc : noHang (setLabelAndHasChild lv n p lab hc).
Proof. unfold setLabelAndHasChild. nh. destruct a1; nh. Qed.
Lemma noHang_dense lv : forall todo pos node lab hc ip, noHang (SurfModel.dense_loop todo pos node lv lab hc ip).
Proof.
  induction todo as [|todo IH]; intros; cbn [SurfModel.dense_loop]; [apply noHang_Ok|]. apply noHang_bind; [apply noHang_readBit|intros st].
  cbn zeta. apply noHang_bind; [destruct st; [apply noHang_isTerm|apply noHang_Ok]|intros t]. destruct t.
  - apply noHang_bind; [apply noHang_setBit|intros; apply IH].
  - apply noHang_bind; [apply noHang_setLabel|intros [x y]; apply IH].
Qed.
Lemma noHang_level lv lab hc ip : noHang (buildDense_level lv lab hc ip).
Proof.
  unfold buildDense_level. destruct (Nat.eqb (numItems lv) 0); [apply noHang_Ok|]. apply noHang_bind; [apply noHang_isTerm|intros t].
  apply noHang_bind; [|intros [[x y] z]; apply noHang_dense]. destruct t; [nh|].
  apply noHang_bind; [apply noHang_setLabel|intros [x y]; apply noHang_Ok].
Qed.
Lemma noHang_buildDense : forall todo l b, noHang (buildDense_loop todo l b).
Proof.
  induction todo as [|todo IH]; intros; cbn [buildDense_loop]; [apply noHang_Ok|]. apply noHang_bind; [apply noHang_idx|intros lv]. cbn zeta.
  apply noHang_bind; [apply noHang_idx|intros]. apply noHang_bind; [apply noHang_idx|intros]. apply noHang_bind; [apply noHang_idx|intros].
  apply noHang_bind; [apply noHang_level|intros [[x y] z]].
  apply noHang_bind; [apply noHang_upd|intros]. apply noHang_bind; [apply noHang_upd|intros]. apply noHang_bind; [apply noHang_upd|intros]. apply IH.
Qed.

(* ------------------------------------------------------------------ *)
(** ** The two Builds *)

Lemma input_facts vs h r keys vals fuel : valid_input vs h r keys vals -> Forall (fun k => length k < fuel) keys ->
  let kvs := combine keys vals in let c := mkcfg vs h r in
  map fst kvs = keys /\ length kvs = length keys /\ kvs <> [] /\ nwf (mknode kvs 0) /\ kok c (fuel - 1) 0 kvs /\ 0 < fuel /\
  (length kvs = 1 -> is_term 0 kvs = false) /\ cfg_ok c.
Proof.
  intros V HFu kvs c.
  assert (MF : map fst kvs = keys) by (apply map_fst_combine; apply V).
  assert (LK : length kvs = length keys) by (rewrite <- MF; symmetry; apply map_length).
  assert (KNE : kvs <> []) by (intros E; rewrite E in MF; cbn in MF; symmetry in MF; now apply (v_ne _ _ _ _ _ V)).
  assert (KB : Forall (fun e : kv => wf_bytes (fst e) = true) kvs).
  { pose proof (v_byte _ _ _ _ _ V) as B. rewrite <- MF, Forall_map in B. exact B. }
  assert (W : nwf (mknode kvs 0)).
  { apply root_wf; auto. - rewrite MF. apply V. - rewrite MF. apply V. }
  split; [auto|]. split; [auto|]. split; [auto|]. split; [auto|]. split; [|split; [|split]].
  - constructor; auto.
    + rewrite MF. apply V.
    + apply share_0.
    + pose proof (v_size _ _ _ _ _ V) as X. rewrite <- map_snd_combine, Forall_map in X. exact X.
    + rewrite <- MF, Forall_map in HFu. eapply Forall_impl; [|exact HFu]. cbn. intros. lia.
  - destruct keys as [|k ks]; [exfalso; now apply (v_ne _ _ _ _ _ V)|]. inversion HFu; subst. lia.
  - intros H1. pose proof (w_one _ W H1) as T. cbn [mknode tn_kvs tn_d] in T. destruct kvs as [|e [|? ?]]; cbn in H1; try lia.
    cbn [branch] in T. unfold oneway in T at 1. cbn [is_term length] in T.
    replace (negb (Nat.leb (length (fst e)) 0) && negb (Nat.eqb 1 1)) with false in T by (rewrite andb_comm; reflexivity). cbn [andb] in T. exact T.
  - split; [reflexivity|]. cbn [c mkcfg]. apply V.
Qed.

(** What the first Build leaves in the builder. *)
Lemma first_build fp vs h r keys vals hint fuel s b : valid_input vs h r keys vals -> Forall (fun k => length k < fuel) keys -> 2 <= length keys ->
  surf_build fp fuel (newBuilder vs h r) keys vals hint = Ok (s, b) ->
  lreps fp (mkcfg vs h r) (b_levels b) (trie (combine keys vals)) /\ b_config b = mkcfg vs h r /\
  (ld_height (s_ld s) = 0 -> b_ldLabels b = [] /\ b_ldHasChild b = [] /\ b_ldIsPrefix b = []) /\
  (0 < ld_height (s_ld s) -> exists w ws, b_ldLabels b = w :: ws /\ length w = 4).
Proof.
  intros V HFu H2 E. destruct (surf_build_full fp vs h r keys vals hint fuel V HFu) as (s' & b' & lvs & E' & R & RL & BL & BS & LD & LS).
  rewrite E' in E. apply Ok_eq in E. inversion E; subst s' b'. clear E.
  destruct (input_facts vs h r keys vals fuel V HFu) as (MF & LK & KNE & W & K & F0 & _ & CO).
  destruct R as (_ & _ & _ & _ & RD & _). rewrite (ldr_h _ _ _ _ _ RD).
  unfold surf_build in E'. apply bind_Ok in E' as (kvs & EZ & E'). apply bind_Ok in E' as (lvs' & EN & E'). cbn zeta in E'.
  apply bind_Ok in E' as (b1 & ED & E'). apply bind_Ok in E' as (pv & _ & E'). apply bind_Ok in E' as (ld & _ & E'). apply bind_Ok in E' as (ls & _ & E').
  apply Ok_eq in E'. assert (b1 = b) by congruence. subst b1. clear E'.
  destruct (buildDense_keeps _ _ _ _ ED) as (K1 & K2 & K3 & _ & K5 & K6). cbn [b_levels b_sparseStart b_ldLabels] in *.
  assert (lvs' = lvs) by congruence. subst lvs'. rewrite BL.
  split; [exact RL|]. split; [rewrite K2; reflexivity|]. rewrite <- BS, K3. split.
  - intros X. rewrite (K5 X). cbn. auto.
  - intros X. destruct (K6 eq_refl X eq_refl) as (lv & w & ws & X1 & X2 & X3). exists w, ws. split; auto. rewrite X3.
    apply idx_Ok in X1. unfold trie in RL. destruct (combine keys vals) as [|e r0] eqn:EC; [congruence|]. cbn [length blevels] in RL. inversion RL as [|lv0 ns l l' R0 R1]; subst.
    match goal with H : _ = b_levels b |- _ => rewrite <- H in X1 | H : b_levels b = _ |- _ => rewrite H in X1 | _ => idtac end. cbn in X1. injection X1 as <-. rewrite (r_count _ _ _ _ _ R0). reflexivity.
Qed.

Section Second.
Variables (fp : bytes -> N) (vs h r : nat) (keys1 vals1 keys2 vals2 : list bytes) (hint1 hint2 : Z) (f1 f2 : nat) (s1 : surf) (b1 : builder).
Hypothesis V1 : valid_input vs h r keys1 vals1.
Hypothesis V2 : valid_input vs h r keys2 vals2.
Hypothesis F1 : Forall (fun k => length k < f1) keys1.
Hypothesis F2 : Forall (fun k => length k < f2) keys2.
Hypothesis L1 : 2 <= length keys1.
Hypothesis L2 : 2 <= length keys2.
Hypothesis FIT : fits32 (length (concat keys1) + length (concat keys2)).
Hypothesis B1 : surf_build fp f1 (newBuilder vs h r) keys1 vals1 hint1 = Ok (s1, b1).
Let c := mkcfg vs h r.
Let r1 := mknode (combine keys1 vals1) 0.
Let r2 := mknode (combine keys2 vals2) 0.

Lemma wsum_root keys vals : valid_input vs h r keys vals -> wsum (mknode (combine keys vals) 0) <= length (concat keys).
Proof.
  intros V. rewrite concat_length_nsum. rewrite <- (map_fst_combine keys vals) at 2 by apply V. rewrite map_map. unfold wsum. cbn [mknode tn_kvs tn_pd]. apply nsum_le. intros; lia.
Qed.

Lemma second_build : exists NSS lvs,
  Forall nwf (concat NSS) /\ Forall (leaf_ok c) (leaves (concat NSS)) /\ (exists T, NSS = [r1; r2] :: T) /\
  let cut := determineCutoffLevel lvs (length keys2) (h + r) hint2 in
  (ld_height (s_ld s1) = 0 \/ cut = 0 -> exists s2 b2, surf_build fp f2 b1 keys2 vals2 hint2 = Ok (s2, b2) /\
     ld_rep fp c (s_ld s2) cut (concat (firstn cut NSS)) /\ (cut = 0 -> ls_rep fp c (s_ls s2) (length NSS) 0 [] (concat NSS))) /\
  (0 < ld_height (s_ld s1) -> 0 < cut -> surf_build fp f2 b1 keys2 vals2 hint2 = Panic).
Proof.
  destruct (first_build fp vs h r keys1 vals1 hint1 f1 s1 b1 V1 F1 L1 B1) as (RL & BC & BD0 & BD1).
  destruct (input_facts vs h r keys1 vals1 f1 V1 F1) as (MF1 & LK1 & KN1 & W1 & _ & _ & _ & CO).
  destruct (input_facts vs h r keys2 vals2 f2 V2 F2) as (MF2 & LK2 & KN2 & W2 & K2 & FP & ONE & _).
  set (kvs1 := combine keys1 vals1) in *. set (kvs2 := combine keys2 vals2) in *. fold r1 in W1. fold r2 in W2.
  set (k := length kvs1 + length kvs2).
  assert (SM : small k [r1; r2]) by (constructor; [split; auto; cbn; lia|constructor; [split; auto; cbn; lia|constructor]]).
  assert (S1 : small k [r1]) by (constructor; [split; auto; cbn; lia|constructor]).
  assert (S1' : small (length kvs1) [r1]) by (constructor; [split; auto|constructor]).
  destruct (buildNodes_spec fp c ltac:(apply CO) f2 (f2 - 1) kvs2 0 0 0 (b_levels b1) [] (b_levels b1) (trie kvs1) k K2 ONE) as (lvs & E & R); auto; try lia.
  cbn [app] in E. fold (mknode kvs2 0) in R. fold r2 in R. unfold trie in R. fold r1 in R. rewrite (blevels_fuel _ k _ S1' S1) in R. rewrite <- blevels_app in R. cbn [app] in R.
  set (NSS := blevels k [r1; r2]) in *. exists NSS, lvs.
  assert (WF : Forall nwf (concat NSS)) by (eapply lreps_in; exact R).
  assert (HD : exists T, NSS = [r1; r2] :: T).
  { unfold NSS, k. destruct kvs1 as [|e ?]; [congruence|]. cbn [length Nat.add blevels]. eauto. }
  assert (HV : heavy [r1; r2]) by (constructor; [cbn; lia|constructor; [cbn; lia|constructor]]).
  assert (NE : Forall (fun ns => ns <> []) NSS) by (apply Forall_forall; intros ns Hn; eapply blevels_ne; exact Hn).
  assert (LL : length lvs = length NSS) by (eapply Forall2_length; exact R).
  assert (LN : 0 < length NSS) by (destruct HD as (T & ->); cbn; lia).
  assert (PS : fits32 (psum (concat NSS))).
  { eapply fits32_le; [|exact FIT]. etransitivity; [apply psum_levels; auto|]. cbn [map].
    pose proof (wsum_root keys1 vals1 V1) as X1. pose proof (wsum_root keys2 vals2 V2) as X2. fold kvs1 r1 in X1. fold kvs2 r2 in X2.
    unfold nsum. cbn [fold_right]. lia. }
  split; [exact WF|]. split; [|split; [exact HD|]].
  { apply Forall_forall. intros it Hit. unfold leaves in Hit. apply filter_In in Hit as [Hit Hl]. apply in_flat_map in Hit as (n & Hn & Hit).
    unfold leafb in Hl. destruct (hasc it) eqn:Hc; [discriminate|]. destruct (item_leaf n it Hit Hc) as (e & G).
    assert (He : In e kvs1 \/ In e kvs2).
    { unfold NSS in Hn. change [r1; r2] with ([r1] ++ [r2]) in Hn. rewrite blevels_app in Hn. rewrite (blevels_fuel k (length kvs1) [r1]) in Hn by auto.
      rewrite (blevels_fuel k (length kvs2) [r2]) in Hn by (constructor; [split; auto; cbn; lia|constructor]).
      assert (IE : In e (tn_kvs n)) by (eapply item_grp_incl; eauto; rewrite G; now left).
      apply in_merge in Hn as [Hn|Hn].
      - left. pose proof (trie_ninv kvs1 W1) as TN. rewrite Forall_forall in TN. now apply (ni_incl _ _ (TN n Hn)).
      - right. pose proof (trie_ninv kvs2 W2) as TN. rewrite Forall_forall in TN. now apply (ni_incl _ _ (TN n Hn)). }
    unfold leaf_ok, ivalue, i_kv. rewrite G. cbn [hd].
    assert (GEN : forall keys vals, valid_input vs h r keys vals -> In e (combine keys vals) -> wf_bytes (fst e) = true /\ vs <= length (snd e)).
    { intros keys vals V IE. split.
      - pose proof (v_byte _ _ _ _ _ V) as B. rewrite Forall_forall in B. apply B. rewrite <- (map_fst_combine keys vals) by apply V. now apply in_map.
      - pose proof (v_size _ _ _ _ _ V) as Z. rewrite <- map_snd_combine, Forall_map, Forall_forall in Z. exact (Z e IE). }
    assert (X : wf_bytes (fst e) = true /\ vs <= length (snd e)) by (destruct He; [now apply (GEN keys1 vals1)|now apply (GEN keys2 vals2)]).
    split; [apply X|]. rewrite firstn_length. unfold c. cbn [mkcfg c_valueSize b_config newBuilder b_valueSize]. lia. }
  set (cut := determineCutoffLevel lvs (length keys2) (h + r) hint2).
  assert (CL : cut < length NSS).
  { unfold cut, determineCutoffLevel. match goal with |- cutoff ?a ?b ?c ?d < _ => pose proof (cutoff_le a b c d) end. lia. }
  assert (Hcs : b_type b1 = c_type c /\ b_hashLen b1 = h /\ b_realLen b1 = r /\ b_valueSize b1 = vs).
  { split; [|split; [|split]].
    - exact (f_equal c_type BC). - exact (f_equal c_hashLen BC). - exact (f_equal c_realLen BC). - exact (f_equal c_valueSize BC). }
  destruct Hcs as (C1 & C2 & C3 & C4).
  cbn zeta. unfold surf_build. rewrite zip_kvs_combine by apply V2. cbn [bind]. fold kvs2. rewrite BC. fold c. rewrite E. cbn [bind]. rewrite C1, C2, C3, C4. fold cut.
  split.
  - intros CASE. set (b0 := mkBuilder cut _ _ lvs _ _ _ _ _ _).
    assert (X : exists bb, buildDense_loop cut 0 b0 = Ok bb /\ b_config bb = c /\ b_levels bb = lvs /\ b_sparseStart bb = cut /\
       exists ld, ld_init bb = Ok ld /\ ld_rep fp c ld cut (concat (firstn cut NSS))).
    { destruct (Nat.eq_dec (ld_height (s_ld s1)) 0) as [Z|Z].
      - destruct (BD0 Z) as (D1 & D2 & D3).
        destruct (buildDense_spec fp c lvs NSS cut [] b0 R) as (ldl & ldh & ldp & E2 & D & LA & LB & LC); auto.
        { cbn [length Nat.add]. apply Forall_forall. intros ns Hns. assert (IN : In ns NSS) by (rewrite <- (firstn_skipn cut NSS); apply in_or_app; auto). split.
          - eapply blevels_ne. exact IN. - exact (heavy_levels k [r1; r2] SM HV ns IN). }
        { cbn. lia. } { cbn. now rewrite D1. } { cbn. now rewrite D2. } { cbn. now rewrite D3. }
        { cbn. rewrite D1, D2, D3. split; [|split]; constructor. }
        cbn [length Nat.add] in *. rewrite E2. eexists. split; [reflexivity|]. split; [reflexivity|]. split; [reflexivity|]. split; [reflexivity|].
        match goal with |- exists ld, ld_init ?B = _ /\ _ => apply (ld_init_spec fp c B NSS ldl ldh ldp cut) end; auto; [lia|].
        rewrite psum_length. eapply fits32_le; [apply psum_le_firstn|exact PS].
      - destruct CASE as [Z'|CZ]; [congruence|]. exists b0. rewrite CZ at 1. split; [reflexivity|]. split; [reflexivity|]. split; [reflexivity|]. split; [reflexivity|].
        set (bc := mkBuilder 0 vs (length keys2) lvs [] [] [] (c_type c) h r).
        destruct (ld_init_spec fp c bc NSS [] [] [] 0) as (ld & X1 & X2); auto; try lia.
        { split; [|split]; constructor. } { rewrite psum_length. eapply fits32_le; [apply psum_le_firstn|exact PS]. }
        exists ld. rewrite CZ. split; [|exact X2]. rewrite <- X1. unfold ld_init, b0, bc. cbn [b_sparseStart b_ldLabels b_ldHasChild b_ldIsPrefix b_levels]. rewrite CZ.
        rewrite !slice_firstn by lia. cbn [firstn bind]. reflexivity. }
    destruct X as (bb & X1 & X2 & X3 & X4 & ld & X5 & X6). rewrite X1. cbn [bind].
    destruct (pre_init fp c lvs NSS R) as (pv & EP & _). { rewrite psum_length. exact PS. } rewrite EP. cbn [bind]. rewrite X5. cbn [bind].
    destruct (ls_init_forest fp c bb NSS cut) as (ls & Y1 & Y2); auto; [now rewrite X3| |].
    { rewrite psum_length. eapply fits32_le; [apply psum_le_skipn|exact PS]. }
    rewrite Y1. cbn [bind]. exists (mkSurf ld ls), bb. split; [reflexivity|]. split; [exact X6|exact Y2].
  - intros HP CP. destruct (BD1 HP) as (w & ws & EW & LW). destruct cut as [|cut']; [lia|].
    match goal with |- bind ?m _ = _ => destruct m as [bb| |] eqn:ED end; [exfalso|reflexivity|exfalso].
    + destruct HD as (T & EN). rewrite EN in R.
      assert (R0 : lrep fp c (hd emptyLevel lvs) [r1; r2] []) by (clear -R; unfold lreps in R; inversion R; assumption).
      eapply (buildDense_stuck fp c cut' _ bb w ws lvs r1 r2); [exact R0|cbn; lia| | | |exact ED]; auto.
    + revert ED. apply noHang_buildDense.
Qed.

(** Such a query does not leave the root of the first trie. *)
Lemma lone_root q : q <> [] -> lone keys1 q -> is_prefixb (nprefix r1) q = true ->
  tn_d r1 = 0 /\ match alook r1 q with Some it => hasc it = false | None => True end.
Proof.
  intros NQ LO PX. destruct (input_facts vs h r keys1 vals1 f1 V1 F1) as (MF1 & LK1 & KN1 & W1 & _). fold r1 in W1.
  assert (KI : forall e, In e (tn_kvs r1) -> In (fst e) keys1) by (intros e He; rewrite <- MF1; now apply in_map).
  assert (D0 : tn_d r1 = 0).
  { destruct (Nat.eq_dec (tn_d r1) 0) as [|D]; auto. exfalso.
    apply is_prefixb_iff in PX. assert (PP : is_prefix (ndpath r1) q).
    { rewrite <- (nprefix_path r1 W1). unfold npath. cbn [r1 mknode tn_pd firstn app]. exact PX. }
    assert (HQ : forall e, In e (tn_kvs r1) -> hd_error (fst e) = hd_error q).
    { intros e He. pose proof (ndpath_prefix r1 e W1 He) as PE. pose proof (ndpath_length r1 W1) as NL.
      destruct (ndpath r1) as [|x xs]; [exfalso; now apply D|]. destruct PE as (u & ->). destruct PP as (v & ->). reflexivity. }
    destruct (key0_in r1 W1) as (e & He & _). assert (TW : 2 <= length (tn_kvs r1)) by (unfold r1; cbn [mknode tn_kvs]; lia).
    destruct (other_key r1 e W1 TW He) as (e' & He' & NE).
    apply NE. apply LO; auto. }
  split; auto. destruct (alook r1 q) as [it|] eqn:AL; auto. destruct (hasc it) eqn:HC; auto. exfalso.
  destruct (alook_split r1 q it AL) as (A & B & EI & T & LB). assert (Hit : In it (items r1)) by (rewrite EI; apply in_or_app; right; left; auto).
  rewrite D0 in LB.
  assert (HQ : forall e, In e (i_grp it) -> In (fst e) keys1 /\ hd_error (fst e) = hd_error q).
  { intros e He. destruct (item_noterm r1 it e W1 Hit T He) as (X1 & X2 & X3). rewrite D0 in X2, X3. split; [now apply KI|].
    destruct (fst e) as [|x xs]; [cbn in X2; lia|]. destruct q as [|y ys]; [congruence|]. cbn in X3, LB |- *. congruence. }
  assert (WC : nwf (mkchild it)) by (apply (children_wf r1); auto; unfold children; apply in_map; apply filter_In; auto).
  destruct (key0_in _ WC) as (e & He & _). destruct (other_key (mkchild it) e WC) as (e' & He' & NE); auto.
  { unfold hasc in HC. apply Nat.ltb_lt in HC. cbn [mkchild mknode tn_kvs]. lia. }
  cbn [mkchild mknode tn_kvs] in He, He'. apply NE. apply LO; try apply HQ; auto.
Qed.

Lemma aget_root q f d1 d2 : q <> [] -> lone keys1 q -> aget fp c (S f) d1 r1 q = aget fp c (S f) d2 r1 q.
Proof.
  intros NQ LO. assert (LQ : 0 < length q) by (destruct q; [congruence|cbn; lia]).
  assert (U : forall dl, aget fp c (S f) dl r1 q = if is_prefixb (nprefix r1) q then match alook r1 q with None => None
     | Some it => leafres fp c it q (tn_d r1 + 1) end else None).
  { intros dl. cbn [aget]. change (tn_pd r1) with 0. cbn [skipn]. pose proof (lone_root q NQ LO) as X.
    destruct (is_prefixb (nprefix r1) q); [|now destruct dl, (Nat.leb_spec (length q) 0); auto; lia].
    destruct (X eq_refl) as (D0 & Y). rewrite D0. destruct (Nat.leb_spec (length q) 0); [lia|].
    destruct (alook r1 q) as [it|]; [rewrite Y|]; now destruct dl. }
  now rewrite !U.
Qed.

Lemma second_get s2 b2 q : surf_build fp f2 b1 keys2 vals2 hint2 = Ok (s2, b2) -> wf_bytes q = true -> q <> [] -> lone keys1 q ->
  surf_get fp s2 q = surf_get fp s1 q.
Proof.
  intros B2 Hq NQ LO.
  destruct second_build as (NSS & lvs & WF & LF & (T & EN) & YES & NO). cbn zeta in *. set (cut := determineCutoffLevel lvs (length keys2) (h + r) hint2) in *.
  assert (CASE : ld_height (s_ld s1) = 0 \/ cut = 0).
  { destruct (Nat.eq_dec (ld_height (s_ld s1)) 0) as [|Z]; auto. right. destruct (Nat.eq_dec cut 0) as [|Z']; auto. rewrite NO in B2 by lia. discriminate. }
  destruct (YES CASE) as (s & b & B & RD & RS). rewrite B in B2. apply Ok_eq in B2. assert (s = s2) by congruence. subst s. clear B2.
  destruct (input_facts vs h r keys1 vals1 f1 V1 F1) as (_ & _ & _ & _ & _ & _ & _ & CO).
  rewrite (first_get fp c s2 cut NSS r1 [r2] q CO RD RS) with (f := length q); auto.
  - destruct (get_aget fp vs h r keys1 vals1 hint1 s1 q V1) as (cut1 & ->); auto.
    { exists f1, b1. auto. }
    f_equal. now apply aget_root.
  - eauto.
  - intros PX. now apply lone_root.
  - intros PX. destruct (lone_root q NQ LO PX) as [-> _]. destruct q; [congruence|cbn; lia].
Qed.

Lemma second_lost s2 b2 q : surf_build fp f2 b1 keys2 vals2 hint2 = Ok (s2, b2) -> wf_bytes q = true -> q <> [] ->
  (forall k, In k keys1 -> hd_error k <> hd_error q) -> surf_get fp s2 q = Ok None.
Proof.
  intros B2 Hq NQ HN. rewrite (second_get s2 b2 q); auto; [|intros k k' X _ Y _; exfalso; now apply (HN k X)].
  assert (BB : built fp vs h r keys1 vals1 hint1 s1) by (exists f1, b1; auto).
  destruct (get_total fp vs h r keys1 vals1 hint1 s1 q V1 BB Hq) as ([v|] & E); auto. exfalso.
  destruct (get_aget fp vs h r keys1 vals1 hint1 s1 q V1 BB Hq) as (cut1 & E'). rewrite E' in E. apply Ok_eq in E.
  destruct (input_facts vs h r keys1 vals1 f1 V1 F1) as (MF1 & LK1 & KN1 & W1 & _). 
  fold r1 in W1, E. fold c in E.
  assert (LO : lone keys1 q) by (intros k k' X _ Y _; exfalso; now apply (HN k X)).
  pose proof (lone_root q NQ LO) as X. rewrite (aget_root q (length q) cut1 1 NQ LO) in E. cbn [aget] in E. change (tn_pd r1) with 0 in E. cbn [skipn] in E.
  destruct (is_prefixb (nprefix r1) q); [|discriminate]. destruct (X eq_refl) as (D0 & Y). rewrite D0 in E.
  destruct (Nat.leb_spec (length q) 0); [destruct q; [congruence|cbn in *; lia]|].
  destruct (alook r1 q) as [it|] eqn:AL; [|discriminate]. destruct (alook_split r1 q it AL) as (A & B & EI & T & LB).
  assert (Hit : In it (items r1)) by (rewrite EI; apply in_or_app; right; left; auto). destruct (item_leaf r1 it Hit Y) as (e & G).
  destruct (item_noterm r1 it e W1 Hit T) as (X1 & X2 & X3). { rewrite G. now left. }
  rewrite D0 in X2, X3, LB. apply (HN (fst e)). { rewrite <- MF1. now apply in_map. }
  destruct (fst e) as [|x xs]; [cbn in X2; lia|]. destruct q as [|y ys]; [congruence|]. cbn in X3, LB |- *. congruence.
Qed.

Lemma second_returns : ld_height (s_ld s1) = 0 -> exists s2 b2, surf_build fp f2 b1 keys2 vals2 hint2 = Ok (s2, b2).
Proof. intros Z. destruct second_build as (NSS & lvs & _ & _ & _ & YES & _). destruct (YES (or_introl Z)) as (s & b & E & _). eauto. Qed.

Lemma second_dense : 0 < ld_height (s_ld s1) ->
  surf_build fp f2 b1 keys2 vals2 hint2 = Panic \/
  exists s2 b2, surf_build fp f2 b1 keys2 vals2 hint2 = Ok (s2, b2) /\ ld_height (s_ld s2) = 0.
Proof.
  intros HP. destruct second_build as (NSS & lvs & _ & _ & _ & YES & NO). cbn zeta in *. set (cut := determineCutoffLevel lvs (length keys2) (h + r) hint2) in *.
  destruct (Nat.eq_dec cut 0) as [Z|Z]; [right|left; apply NO; lia]. destruct (YES (or_intror Z)) as (s & b & E & RD & _). exists s, b. split; auto.
  rewrite (ldr_h _ _ _ _ _ RD). exact Z.
Qed.
End Second.
