(** * Comparing the iterator's key with a bound. *)
From Coq Require Import Sorted.
From Verif Require Import Base BitsModel BitsFacts VecModel VecProofs VecProofs2 SurfModel SurfTrie SurfSuffix SurfBuild SurfDense SurfEnc SurfBuildTop SurfGet SurfGet2 SurfSpec SurfWalk SurfTop SurfSuffix3 SurfGetSpec SurfIter SurfIterSpec SurfLevel SurfVerdict SurfIterLevel SurfIterPath SurfIterDense SurfIterSparse SurfIterTop SurfIterMain SurfIterSeek SurfIterSeek2.
Ltac Zify.zify_post_hook ::= Z.div_mod_to_equations.

(** Comparing over the common length. *)
Lemma common_cmp p q : let m := Nat.min (length p) (length q) in let cmp := cmpZ (firstn m p) (firstn m q) in
  (cmp <> 0%Z -> forall x, is_prefixb (p ++ x) q = false /\ is_prefixb q (p ++ x) = false /\ cmp = match bcompare (p ++ x) q with Lt => (-1)%Z | _ => 1%Z end) /\
  (cmp = 0%Z -> (length q < length p -> forall x, is_prefixb (p ++ x) q = false /\ bcompare (p ++ x) q = Gt) /\ (length p <= length q -> is_prefix p q)).
Proof.
  cbn zeta. set (m := Nat.min (length p) (length q)).
  assert (EP : forall x, p ++ x = firstn m p ++ (skipn m p ++ x)) by (intros x; rewrite app_assoc, firstn_skipn; reflexivity).
  assert (EQ : q = firstn m q ++ skipn m q) by (symmetry; apply firstn_skipn).
  assert (LP : length (firstn m p) = m) by (rewrite firstn_length; unfold m; lia).
  assert (LQ : length (firstn m q) = m) by (rewrite firstn_length; unfold m; lia).
  assert (NP : forall a b x y, length a = length b -> bcompare a b <> Eq -> is_prefixb (a ++ x) (b ++ y) = false).
  { intros a b x y L N. destruct (is_prefixb (a ++ x) (b ++ y)) eqn:E; auto. exfalso. apply N. apply bcompare_eq. apply is_prefixb_iff in E as (z & E).
    assert (FA : forall (u v : bytes), firstn (length u) (u ++ v) = u) by (intros u v; rewrite firstn_app, firstn_all, Nat.sub_diag; cbn [firstn]; apply app_nil_r).
    rewrite <- app_assoc in E. apply (f_equal (firstn (length a))) in E. rewrite (FA a), L, (FA b) in E. congruence. }
  assert (FL : forall a b, bcompare a b <> Eq -> bcompare b a <> Eq) by (intros a b H H'; apply bcompare_eq in H'; subst; now rewrite bcompare_refl in H).
  unfold cmpZ. destruct (bcompare (firstn m p) (firstn m q)) eqn:C; split; try (intros; lia); try discriminate.
  - apply bcompare_eq in C. intros _. split.
    + intros L x. assert (X : bcompare (p ++ x) q = Gt).
      { rewrite EP, EQ, <- C, bcompare_app. rewrite (skipn_all2 q) by (unfold m; lia).
        destruct (skipn m p) as [|b l] eqn:E; [|reflexivity]. pose proof (skipn_length m p) as SL. rewrite E in SL. cbn [length] in SL. unfold m in SL. lia. }
      split; auto. destruct (is_prefixb (p ++ x) q) eqn:E; auto. apply is_prefixb_iff, is_prefix_length in E. rewrite app_length in E. lia.
    + intros L. rewrite (firstn_all2 p) in C by (unfold m; lia). rewrite EQ, <- C. now exists (skipn m q).
  - intros _ x. rewrite EP, EQ, (bcompare_lt_app (firstn m p) (firstn m q) _ _ ltac:(lia) C). split; [apply NP; congruence|]. split; [|reflexivity]. apply NP; [congruence|]. apply FL. congruence.
  - intros _ x. rewrite EP, EQ, (bcompare_gt_app (firstn m p) (firstn m q) _ _ ltac:(right; lia) C). split; [apply NP; congruence|]. split; [|reflexivity]. apply NP; [congruence|]. apply FL. congruence.
Qed.

(** The number Compare returns. *)
Definition outz (o : outcome) : Z := match o with Less => (-1)%Z | Same => 0%Z | Greater => 1%Z | Unknown => couldBePositive end.

Section Compare.
Variable fp : bytes -> N.
Variable c : config.
Variables (NSS : list (list tnode)) (h : nat) (s : surf) (kvs : list kv).
Hypothesis SR : surf_rep fp c NSS h s.
Hypothesis RT : nth_error NSS 0 = Some [mknode kvs 0].
Hypothesis CO : cfg_ok c.
Hypothesis LO : Forall (leaf_ok c) (leaves (concat NSS)).
Hypothesis INC : increasing (map fst kvs).
Hypothesis NI : Forall (ninv kvs) (concat NSS).
Variable q : bytes.
Hypothesis Wq : wf_bytes q = true.
Notation linked := (dw_linked fp c NSS h s SR).
Notation wf := (dw_wf fp c NSS h s SR).
Notation ld := (s_ld s).
Notation ls := (s_ls s).
Notation keys := (map fst kvs).
Notation r := (c_realLen c).

Lemma prefix_firstn (a k : bytes) : is_prefix a k -> firstn (length a) k = a.
Proof. intros (x & ->). rewrite firstn_app, firstn_all, Nat.sub_diag. cbn [firstn]. apply app_nil_r. Qed.

Lemma ikey_prefix n x e : nwf n -> In x (items n) -> i_grp x = [e] -> is_prefix (ikey n x) (fst e) /\ (i_term x = true -> fst e = ikey n x).
Proof.
  intros W Ix G. unfold ikey. destruct (i_term x) eqn:T.
  - destruct (item_term n x W Ix T) as (e0 & r & _ & G' & E & _). rewrite G in G'. inversion G'; subst e0. rewrite E. split; [apply is_prefix_refl|auto].
  - split; [|discriminate]. apply label_prefix; auto. rewrite G. now left.
Qed.

(** The comparison of the stored suffix. *)
Lemma leaf_scmp n x e xv its j q' lv : nwf n -> In x (items n) -> i_grp x = [e] -> sx_rep fp c xv its -> nth_error its j = Some x ->
  leaf_ok c x -> wf_bytes q' = true ->
  suffix_compare xv q' j lv = Ok (zcmp (part_compare (real_or_zero (length (ikey n x)) r (fst e)) (real_or_zero lv r q'))).
Proof.
  intros W Ix G SX Hj LK Wq'. rewrite (suffix_compare_verdict fp c CO xv its j x q' lv SX Hj (proj1 LK) Wq').
  assert (IK : i_kv x = e) by (unfold i_kv; now rewrite G). destruct (ikey_prefix n x e W Ix G) as [PE TE].
  destruct LK as [Wk _]. rewrite IK in *. rewrite (item_depth n x Ix). do 3 f_equal. unfold ikey in *. destruct (i_term x) eqn:T.
  - specialize (TE eq_refl). rewrite TE in *. rewrite (ndpath_length n W). pose proof (ndpath_length n W) as NL. destruct (Nat.eq_dec r 0) as [->|R0]; [now rewrite !real_or_zero_0|].
    unfold real_or_zero, real_part. rewrite NL. replace (tn_d n - (tn_d n + 1)) with 0 by lia. rewrite Nat.sub_diag. destruct (Nat.leb_spec r (8 * 0)); [lia|reflexivity].
  - now rewrite app_length, (ndpath_length n W).
Qed.

Lemma zcmp_out o : zcmp o = outz (match o with Lt => Less | Eq => Unknown | Gt => Greater end).
Proof. now destruct o. Qed.

Lemma d_compare_comp d pre e post : dcomp NSS h kvs d pre e post -> d_compare ld d q = Ok (outz (compared r h keys (fst e) q)).
Proof.
  intros D. assert (IC : d_isComplete d = true) by (eapply dcomp_flags; eauto). 
  assert (X : exists n x D1 D2 L l j pos, nwf n /\ In x (items n) /\ i_grp x = [e] /\ d_Key d = Ok (ikey n x) /\ d_atPrefix d = i_term x /\ idx (d_pos d) (d_level d) = Ok pos /\
     ld_suffixPos ld pos (d_atPrefix d) = Ok j /\ nth_error (leaves (D1 ++ n :: D2)) j = Some x /\ leaf_ok c x /\ ld_rep fp c ld h (D1 ++ n :: D2) /\ (nth_error NSS l = Some L /\ In n L /\ l < h /\ two_or_top n) /\ ninv kvs n /\ dprefix (map fst kvs) (fst e) = ikey n x).
  { pose proof D as D0. destruct D as [f r e D HC G AP FL|f r t e D EA Tt G AP FL]; pose proof (ds_pok _ _ _ _ _ _ D) as PK; pose proof PK as (PK1 & T1 & EI);
    destruct (dense_at fp c NSS h s kvs SR RT _ _ _ PK1 T1 (ds_h _ _ _ _ _ _ D)) as (D1 & D2 & EC & LD & R & W & ED);
    pose proof (top_wf NSS kvs linked wf RT _ _ _ PK1 T1) as Wn;
    assert (LOD : forall y, In y (leaves (D1 ++ f_n f :: D2)) -> leaf_ok c y) by (intros y Hy; rewrite <- EC in Hy; rewrite Forall_forall in LO; apply LO; unfold leaves in *; rewrite <- (firstn_skipn h NSS), concat_app, flat_map_app, filter_app; apply in_or_app; now left);
    destruct (top_ni fp c NSS h s kvs SR RT NI _ _ _ PK1 T1) as [NIn TWn];
    assert (LVL : exists L, nth_error NSS (length r) = Some L /\ In (f_n f) L /\ length r < h /\ two_or_top (f_n f)) by (destruct (top_at NSS kvs linked RT _ PK1 _ _ T1) as (Q & AT); eexists; split; [exact AT|]; split; [apply in_or_app; right; now left|]; split; [apply (ds_h _ _ _ _ _ _ D)|exact TWn]);
    destruct LVL as (L & LVL);
    pose proof (ds_slots _ _ _ _ _ _ D) as ((S1 & _) & _); exists (f_n f).
    - exists (f_it f), D1, D2, L, (length r). eexists _, _. pose proof (frame_in kvs f r PK) as Ii.
      split; [exact Wn|]. split; [exact Ii|]. split; [exact G|]. split.
      { destruct (show_leaf fp c NSS h s kvs SR RT LO INC NI d f r e D HC G AP) as [-> _]. f_equal. eapply leaf_key; eauto. }
      split; [rewrite AP; symmetry; apply (ds_noterm _ _ _ _ _ _ D)|]. rewrite (ds_level _ _ _ _ _ _ D). split; [apply idx_Ok; exact S1|]. rewrite AP, <- LD. unfold flab.
      split; [apply (d_suffixPos_leaf fp c ld h D1 D2 (f_n f) R W (f_A f) (f_it f) (f_B f)); auto; apply (ds_noterm _ _ _ _ _ _ D)|].
      assert (NE : nth_error (leaves (D1 ++ f_n f :: D2)) (length (filter leafb (flat_map items D1 ++ f_A f))) = Some (f_it f)) by (apply (leaves_split D1 D2 (f_n f) (f_A f) (f_it f) (f_B f)); auto).
      split; [exact NE|]. split; [apply LOD; eapply nth_error_In; eauto|]. split; [exact R|]. split; [exact LVL|]. split; [exact NIn|]. eapply leaf_key; eauto.
    - exists t, D1, D2, L, (length r). eexists _, _. rewrite EA in EI. cbn [app] in EI. assert (It : In t (items (f_n f))) by (rewrite EI; now left).
      assert (HT : hasc t = false) by (destruct (hasc t) eqn:HT; auto; rewrite (item_hasc_noterm _ _ It HT) in Tt; discriminate).
      split; [exact Wn|]. split; [exact It|]. split; [exact G|]. split.
      { destruct (show_term fp c NSS h s kvs SR RT LO INC NI d f r t e D EA Tt G AP) as [-> _]. f_equal. eapply leaf_key; eauto. }
      split; [congruence|]. rewrite (ds_level _ _ _ _ _ _ D). split; [apply idx_Ok; exact S1|]. rewrite AP, <- LD. unfold flab.
      split; [apply (d_suffixPos_term1 fp c ld h D1 D2 (f_n f) R W t (f_it f) (f_B f)); auto|].
      assert (NE : nth_error (leaves (D1 ++ f_n f :: D2)) (length (filter leafb (flat_map items D1 ++ []))) = Some t) by (apply (leaves_split D1 D2 (f_n f) [] t (f_it f :: f_B f)); auto).
      rewrite app_nil_r in NE. split; [exact NE|]. split; [apply LOD; eapply nth_error_In; eauto|]. split; [exact R|]. split; [exact LVL|]. split; [exact NIn|]. eapply leaf_key; eauto. }
  destruct X as (n & x & D1 & D2 & L & l & j & pos & Wn & Ix & G & EKd & AP & EP & ES & NE & LK & R & (LV1 & LV2 & LV3 & TW) & NIn & DK). unfold d_compare. rewrite EKd. cbn [bind]. rewrite EP. cbn [bind]. rewrite ES. cbn [bind]. rewrite IC.
  unfold compared. rewrite DK, (item_continued kvs n x e NIn Ix G), (leaf_level_node NSS kvs linked RT INC NI l L n x e LV1 LV2 TW Ix G). destruct (Nat.leb_spec h l); [lia|]. cbn [andb]. rewrite AP, Nat.sub_0_r. change (skipn 0 q) with q.
  destruct (common_cmp (ikey n x) q) as (C1 & C2). set (cmp := cmpZ _ _) in *. destruct (Z.eqb_spec cmp 0) as [E0|E0]; cbn [negb].
  - destruct (C2 E0) as [C5 C6]. destruct (Nat.ltb_spec (length q) (length (ikey n x))) as [Lq|Lq].
    + specialize (C5 Lq []). rewrite app_nil_r in C5. destruct C5 as [-> ->]. reflexivity.
    + pose proof (C6 Lq) as P. rewrite (proj2 (is_prefixb_iff _ _) P).
      assert (EB : beqb (ikey n x) q = Nat.eqb (length (ikey n x)) (length q)).
      { destruct (Nat.eqb_spec (length (ikey n x)) (length q)) as [LE|LE]; [apply beqb_eq; apply is_prefix_eq; auto; lia|apply beqb_neq; congruence]. }
      rewrite EB, andb_comm. destruct (i_term x && (length (ikey n x) =? length q)); [reflexivity|].
      rewrite (leaf_scmp n x e _ _ _ q (length (ikey n x)) Wn Ix G (ldr_suf _ _ _ _ _ R) NE LK Wq), zcmp_out. reflexivity.
  - specialize (C1 E0 []). rewrite app_nil_r in C1. destruct C1 as (-> & _ & ->). destruct (bcompare (ikey n x) q); reflexivity.
Qed.

Lemma compare_at idle it pre e post : At NSS h kvs idle it pre e post -> it_compare s it q = Ok (outz (compared r h keys (fst e) q)).
Proof.
  intros [p e' rr D _ _|R0 PZ n0 p e' rr K0 T0 LH DB S]; unfold it_compare.
  - rewrite (d_compare_comp _ _ _ _ D). cbn [bind]. destruct (dcomp_flags _ _ _ _ _ _ _ D) as (_ & -> & _). reflexivity.
  - unfold d_compare. rewrite (dbase_key fp c NSS h s kvs SR RT _ _ _ _ K0 T0 LH DB). cbn [bind]. destruct (dbase_valid _ _ _ _ _ DB) as [_ ->]. cbn [orb].
    assert (AP : d_atPrefix (i_dense it) = false). { destruct R0; cbn [dbase] in DB; decompose [and] DB; auto. }
    rewrite AP, andb_false_r.
    destruct (sshow fp c NSS h s kvs SR RT R0 PZ n0 K0 T0 LH LO INC NI _ _ _ _ S) as ((k & EK & KP) & _).
    assert (W0 : nwf n0) by apply (top_wf NSS kvs linked wf RT _ _ _ K0 T0).
    destruct S as [f G e' S HC GE V AT]. pose proof (ss_pok _ _ _ _ _ _ _ _ S) as PK. 
    destruct (s_frame fp c NSS h s kvs SR RT R0 LH f G PK) as (S1 & S2 & EC & NI' & R & W & ESP & Wn & EI & ES & TW).
    pose proof (frame_in kvs f _ PK) as Ii. pose proof PK as (PK1 & T1 & _). destruct (top_ni fp c NSS h s kvs SR RT NI _ _ _ PK1 T1) as [NIn TWn].
    pose proof (leaf_key fp c NSS h s kvs SR RT INC NI f (G ++ R0) e' PK (f_it f) Ii GE) as DK. rewrite DK in KP.
    assert (LVL : leaf_level keys (fst e') = length (G ++ R0)).
    { destruct (top_at NSS kvs linked RT _ PK1 _ _ T1) as (Q & ATn). eapply (leaf_level_node NSS kvs linked RT INC NI); [exact ATn|apply in_or_app; right; now left|exact TWn|exact Ii|exact GE]. }
    destruct (ikey_prefix _ _ _ Wn Ii GE) as [PE TE].
    assert (SD : start_depth h keys (fst e') = length (npath n0)).
    { destruct (top_at NSS kvs linked RT _ K0 _ _ T0) as (Q & AT0). unfold at_node in AT0. rewrite LH in AT0. eapply (start_depth_node NSS kvs linked RT NI); [exact AT0|apply in_or_app; right; now left|].
      eapply is_prefix_trans; [|exact PE]. rewrite <- KP. now exists k. }
    unfold compared. rewrite DK, (item_continued kvs _ _ _ NIn Ii GE), LVL, SD, <- KP. rewrite !app_length. destruct (Nat.leb_spec h (length G + length R0)) as [_|]; [|lia]. cbn [andb].
    destruct (common_cmp (npath n0) q) as (C1 & C2). set (cmp := cmpZ _ _) in *.
    destruct (Z.eqb_spec cmp 0) as [E0|E0]; cbn [negb].
    + destruct (C2 E0) as [C5 C6]. destruct (Nat.ltb_spec (length q) (length (npath n0))) as [L|L].
      { cbn [bind]. change (negb (1 =? 0)%Z) with true. cbn [orb]. destruct (C5 L k) as [-> ->]. destruct (Nat.eqb_spec (length q) (length (npath n0))); [lia|]. rewrite andb_false_r. reflexivity. }
      cbn [bind]. rewrite E0. change (negb (0 =? 0)%Z) with false. cbn [orb]. clear cmp C1 C2 C5 E0.
      destruct (C6 L) as (w & Ew). unfold p_compare. rewrite EK. cbn [bind]. rewrite (ss_start _ _ _ _ _ _ _ _ S), <- (npath_length _ W0).
      destruct (Nat.ltb_spec (length q) (length (npath n0))); [lia|]. rewrite AT.
      assert (SKW : skipn (length (npath n0)) q = w) by (rewrite Ew, skipn_app, skipn_all, Nat.sub_diag; reflexivity).
      assert (PA : forall a b, is_prefixb (npath n0 ++ a) (npath n0 ++ b) = is_prefixb a b).
      { intros a b. clear. induction (npath n0) as [|y l IH]; cbn [app is_prefixb]; auto. now rewrite Nat.eqb_refl. }
      assert (BA : forall a b, beqb (npath n0 ++ a) (npath n0 ++ b) = beqb a b).
      { intros a b. clear. induction (npath n0) as [|y l IH]; cbn [app beqb]; auto. now rewrite Nat.eqb_refl. }
      destruct (Nat.eqb_spec (length (npath n0)) (length q)) as [LQ|LQ].
      { assert (WN : w = []) by (rewrite Ew, app_length in LQ; destruct w; [auto|cbn in LQ; lia]). clear SKW. subst w. rewrite Ew, PA, PA, BA, bcompare_app, app_length. cbn [length]. rewrite Nat.add_0_r, Nat.eqb_refl.
        assert (KT : i_term (f_it f) = false -> k <> []).
        { intros T ->. rewrite app_nil_r in KP. apply (f_equal (@length nat)) in KP. revert KP. unfold ikey. rewrite T, app_length, (ndpath_length _ Wn), (npath_length _ W0). cbn [length]. pose proof (w_pd _ Wn) as PD.
          pose proof (base_le fp c NSS h s kvs SR RT R0 PZ n0 T0 LH G _ _ (proj1 PK) (proj1 (proj2 PK))) as BL. lia. }
        destruct k as [|b k]; destruct (i_term (f_it f)) eqn:T; try reflexivity. now destruct (KT eq_refl). }
      unfold slice_from. destruct (Nat.leb_spec (length (npath n0)) (length q)); [|lia]. cbn [bind]. rewrite SKW.
      destruct (Nat.eqb_spec (length q) (length (npath n0))); [congruence|]. rewrite andb_false_r. cbn [andb].
      rewrite Ew, PA, BA, bcompare_app. replace (length (npath n0) + length k - length (npath n0)) with (length k) by lia.
      destruct (common_cmp k w) as (C1 & C2). set (cmp := cmpZ _ _) in *. destruct (Z.eqb_spec cmp 0) as [E0|E0]; cbn [negb].
      * destruct (C2 E0) as [C7 C8]. destruct (Nat.ltb_spec (length w) (length k)) as [Lw|Lw].
        { specialize (C7 Lw []). rewrite app_nil_r in C7. destruct C7 as [-> ->]. reflexivity. }
        pose proof (C8 Lw) as P. rewrite (proj2 (is_prefixb_iff _ _) P).
        assert (EB : beqb k w = Nat.eqb (length k) (length w)).
        { destruct (Nat.eqb_spec (length k) (length w)) as [LE|LE]; [apply beqb_eq; apply is_prefix_eq; auto; lia|apply beqb_neq; congruence]. }
        rewrite EB, andb_comm. destruct (i_term (f_it f) && (length k =? length w)); [reflexivity|].
        rewrite (ss_level _ _ _ _ _ _ _ _ S). pose proof (ss_slots _ _ _ _ _ _ _ _ S) as ((X1 & _) & _). rewrite (proj2 (idx_Ok _ _ _) X1). cbn [bind].
        rewrite ESP, (s_suffixPos fp c _ _ _ _ _ _ _ R _ _ _ EI HC). cbn [bind].
        assert (NE : nth_error (leaves (S1 ++ f_n f :: S2)) (length (filter leafb (flat_map items S1 ++ f_A f))) = Some (f_it f)) by (apply (leaves_split S1 S2 (f_n f) (f_A f) (f_it f) (f_B f)); auto).
        rewrite (leaf_scmp _ _ e' _ _ _ w (length k) Wn Ii GE (lsr_suf _ _ _ _ _ _ _ R) NE), zcmp_out; [rewrite <- KP, app_length; reflexivity| |].
        -- rewrite Forall_forall in LO. apply LO. unfold leaves in *. rewrite <- (firstn_skipn h NSS), concat_app, flat_map_app, filter_app. apply in_or_app. right. rewrite EC. eapply nth_error_In; eauto.
        -- unfold wf_bytes in *. rewrite Ew, forallb_app in Wq. now apply andb_true_iff in Wq as [_ Wq'].
      * specialize (C1 E0 []). rewrite app_nil_r in C1. destruct C1 as (-> & _ & ->). destruct (bcompare k w); reflexivity.
    + cbn [bind]. destruct (Z.eqb_spec cmp 0); [congruence|]. cbn [negb orb]. destruct (C1 E0 k) as (-> & -> & ->). rewrite andb_false_r. destruct (bcompare (npath n0 ++ k) q); reflexivity.
Qed.
End Compare.
