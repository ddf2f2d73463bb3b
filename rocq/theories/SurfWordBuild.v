(** * SurfWordBuild: where no counter reaches 2^32, Build with uint32 arithmetic returns what
    Build of SurfModel returns. *)
From Verif Require Import Base BitsModel BitsFacts VecModel SurfModel SurfWord VecProofs VecProofs2 SurfSize SurfWordProofs.

Definition lvle (a b : level) : Prop :=
  length (lv_labels a) <= length (lv_labels b) /\ lv_suffixCount a <= lv_suffixCount b /\ lv_nodeCount a <= lv_nodeCount b.
Definition lvlim (lv : level) : Prop := lim (length (lv_labels lv)) /\ lim (lv_suffixCount lv) /\ lim (lv_nodeCount lv).
Definition lsle (a b : list level) : Prop := forall i lv, nth_error a i = Some lv -> exists lv', nth_error b i = Some lv' /\ lvle lv lv'.

Lemma lvle_refl a : lvle a a.
Proof. unfold lvle. lia. Qed.
Lemma lvle_trans a b d : lvle a b -> lvle b d -> lvle a d.
Proof. unfold lvle. lia. Qed.
Lemma lvle_lim a b : lvle a b -> lvlim b -> lvlim a.
Proof. unfold lvle, lvlim. fit. Qed.
Lemma lsle_refl a : lsle a a.
Proof. intros i lv H. exists lv. split; auto. apply lvle_refl. Qed.
Lemma lsle_trans a b d : lsle a b -> lsle b d -> lsle a d.
Proof. intros H1 H2 i lv E. destruct (H1 i lv E) as (lv1 & E1 & L1). destruct (H2 i lv1 E1) as (lv2 & E2 & L2). exists lv2. split; auto. eapply lvle_trans; eauto. Qed.
Lemma lsle_lim a b : lsle a b -> Forall lvlim b -> Forall lvlim a.
Proof.
  intros H F. apply Forall_forall. intros x Hx. apply In_nth_error in Hx as (i & E). destruct (H i x E) as (y & E2 & L).
  eapply lvle_lim; [exact L|]. rewrite Forall_forall in F. apply F. eapply nth_error_In; eauto.
Qed.

Section B.
Variable fp : bytes -> N.
Variable c : config.
Hypothesis Hlen : c_hashLen c + c_realLen c <= 64.
Let slen := c_hashLen c + c_realLen c.

Definition lvok (lv : level) : Prop := length (lv_suffixes lv) * 64 <= lv_suffixCount lv * slen + 64.
(** [f] and its version with uint32 counters. *)
Definition sim (f g : level -> res level) : Prop := forall lv lv', lvok lv -> f lv = Ok lv' -> lvok lv' /\ lvle lv lv' /\ (lvlim lv' -> g lv = Ok lv').

Lemma real32_deep key lvl rl : shortkey key -> (N.of_nat lvl <= 1073741824)%N -> rl <= 64 -> constructRealSuffix32 key lvl rl = constructRealSuffix key lvl rl.
Proof.
  intros K L R. unfold constructRealSuffix32, constructRealSuffix. unfold shortkey in K. rewrite w32_small by fit. rewrite mul32_small by fit.
  assert (rl / 8 <= rl) by (apply Nat.div_le_upper_bound; lia). rewrite add32_small by fit. reflexivity.
Qed.
Lemma suffix32_deep key lvl : shortkey key -> (N.of_nat lvl <= 1073741824)%N ->
  constructSuffix32 fp key lvl (c_type c) (c_realLen c) (c_hashLen c) = constructSuffix fp key lvl (c_type c) (c_realLen c) (c_hashLen c).
Proof.
  intros K L. unfold constructSuffix32, constructSuffix, constructMixedSuffix32, constructMixedSuffix. destruct (c_type c); auto; now rewrite real32_deep by (auto; lia).
Qed.

Lemma upd_inv {A} (l : list A) i x l' : upd l i x = Ok l' -> i < length l /\ l' = set_nth l i x.
Proof. intros H. unfold upd in H. destruct (Nat.ltb_spec i (length l)); [|discriminate]. apply OkI in H. auto. Qed.
Lemma upd_len {A} (l : list A) i x y : upd l i x = Ok y -> length y = length l.
Proof. intros H. apply upd_inv in H as (_ & ->). apply set_nth_length. Qed.
Lemma or_at_len bs i x y : or_at bs i x = Ok y -> length y = length bs.
Proof. unfold or_at. intros H. apply bindI in H as (w & _ & H). now apply upd_len in H. Qed.

Lemma insertSuffix_sim key d : shortkey key -> (N.of_nat d <= 536870912)%N -> sim (insertSuffix fp c key d) (insertSuffix32 fp c key d).
Proof.
  intros K D lv lv' O H. unfold insertSuffix in H. apply bindI in H as (sx & ES & H). cbv zeta in H.
  change (c_suffixLen c) with slen in H. apply bindI in H as (ss & E & H). apply OkI in H.
  pose proof (or_at_len _ _ _ _ E) as LE. set (pos := lv_suffixCount lv * slen) in *.
  pose proof (Nat.mod_upper_bound pos 64 ltac:(lia)) as MB. pose proof (Nat.div_mod pos 64 ltac:(lia)) as DM. unfold lvok in O.
  fold pos in O. subst lv'. split; [|split].
  - unfold lvok. cbn [set_suffixes lv_suffixes lv_suffixCount]. replace ((lv_suffixCount lv + 1) * slen) with (pos + slen) by (unfold pos; lia).
    assert (SL : slen <= 64) by exact Hlen.
    destruct (Nat.ltb_spec (64 - pos mod 64) slen); rewrite ?app_length, LE; cbn [length].
    + assert (Q : length (lv_suffixes lv) * 64 <= pos + (64 - pos mod 64)) by lia.
      destruct (Nat.eqb_spec pos (length (lv_suffixes lv) * 64)) as [Z|Z]; rewrite ?app_length; cbn [length]; [|lia].
      rewrite Z, Nat.mod_mul in H by lia. lia.
    + destruct (Nat.eqb_spec pos (length (lv_suffixes lv) * 64)) as [Z|Z]; rewrite ?app_length; cbn [length]; lia.
  - unfold lvle. cbn [set_suffixes lv_labels lv_suffixCount lv_nodeCount]. lia.
  - intros (L1 & L2 & L3). cbn [set_suffixes lv_labels lv_suffixCount lv_nodeCount] in L1, L2, L3.
    unfold insertSuffix32. rewrite (w32_small d), (add32_small d 1) by fit. rewrite suffix32_deep by (auto; lia). rewrite ES. cbn [bind]. cbv zeta.
    unfold c_suffixLen32. rewrite (add32_small (c_hashLen c)) by fit. fold slen.
    assert (PF : pos <= lv_suffixCount lv * 64) by (unfold pos; assert (slen <= 64) by exact Hlen; nia).
    rewrite (mul32_small (lv_suffixCount lv) slen) by (fold pos; fit). fold pos.
    rewrite (w32_small (length (lv_suffixes lv) * 64)) by fit. rewrite E. cbn [bind]. rewrite (add32_small (lv_suffixCount lv) 1) by fit. reflexivity.
Qed.
Lemma insertValue_sim v : sim (insertValue c v) (insertValue32 c v).
Proof.
  intros lv lv' O H. unfold insertValue, insertValue32 in *. apply bindI in H as (x & -> & H). apply OkI in H. subst lv'. split; [exact O|]. split; [exact (lvle_refl lv)|]. reflexivity.
Qed.
Lemma slot_ok lv : lvok lv -> lvok (moveToNextItemSlot lv) /\ lvle lv (moveToNextItemSlot lv) /\ lv_labels (moveToNextItemSlot lv) = lv_labels lv /\
  (lim (length (lv_labels lv)) -> moveToNextItemSlot32 lv = moveToNextItemSlot lv).
Proof.
  intros O. unfold moveToNextItemSlot32, moveToNextItemSlot, numItems32, numItems. split; [|split; [|split]].
  - destruct (Nat.eqb _ _); exact O.
  - destruct (Nat.eqb _ _); exact (lvle_refl lv).
  - destruct (Nat.eqb _ _); reflexivity.
  - intros L. rewrite w32_small by fit. reflexivity.
Qed.
Lemma labels_ok lv b : lvok lv -> lvok (set_labels lv (lv_labels lv ++ [b])) /\ lvle lv (set_labels lv (lv_labels lv ++ [b])).
Proof. intros O. split; [exact O|]. unfold lvle. cbn. rewrite app_length. cbn. lia. Qed.

Lemma addTerminator_sim e d : shortkey (fst e) -> (N.of_nat d <= 536870912)%N -> sim (addTerminator fp c e d) (addTerminator32 fp c e d).
Proof.
  intros K D lv lv' O H. unfold addTerminator, addTerminator32 in *. apply bindI in H as (l1 & E1 & H). apply bindI in H as (l2 & E2 & H). apply OkI in H.
  destruct (labels_ok lv labelTerminator O) as (O0 & L0).
  apply (insertSuffix_sim _ _ K D) in E1 as (O1 & L1 & G1); [|exact O0]. apply insertValue_sim in E2 as (O2 & L2 & G2); [|exact O1].
  destruct (slot_ok l2 O2) as (O3 & L3 & EL & G3). subst lv'. split; auto.
  assert (L0' : lvle lv (set_lastTerm (set_labels lv (lv_labels lv ++ [labelTerminator])) true)) by exact L0.
  pose proof (lvle_trans _ _ _ (lvle_trans _ _ _ (lvle_trans _ _ _ L0' L1) L2) L3) as LL. split; auto. intros LM.
  pose proof (lvle_lim _ _ L3 LM) as M2. pose proof (lvle_lim _ _ L2 M2) as M1. rewrite (G1 M1). cbn [bind]. rewrite (G2 M2). cbn [bind]. rewrite G3; auto. apply M2.
Qed.
Lemma addLeaf_sim e b d : shortkey (fst e) -> (N.of_nat d <= 536870912)%N -> sim (addLeaf fp c e b d) (addLeaf32 fp c e b d).
Proof.
  intros K D lv lv' O H. unfold addLeaf, addLeaf32 in *. apply bindI in H as (l1 & E1 & H).
  destruct (labels_ok lv b O) as (O0 & L0). destruct (slot_ok _ O0) as (O00 & L00 & EL & G0).
  apply (insertSuffix_sim _ _ K D) in E1 as (O1 & L1 & G1); [|exact O00]. apply insertValue_sim in H as (O2 & L2 & G2); [|exact O1].
  split; auto. pose proof (lvle_trans _ _ _ (lvle_trans _ _ _ (lvle_trans _ _ _ L0 L00) L1) L2) as LL. split; auto. intros LM.
  pose proof (lvle_lim _ _ L2 LM) as M1. pose proof (lvle_lim _ _ L1 M1) as M0. pose proof (lvle_lim _ _ L00 M0) as M00.
  rewrite G0 by apply M00. rewrite (G1 M1). cbn [bind]. rewrite (G2 LM). reflexivity.
Qed.
Lemma addInner_sim b : sim (addInner b) (addInner32 b).
Proof.
  intros lv lv' O H. unfold addInner, addInner32 in *. apply bindI in H as (n & E1 & H). apply bindI in H as (hh & E2 & H). apply OkI in H.
  destruct (labels_ok lv b O) as (O0 & L0). destruct (slot_ok _ O0) as (O00 & L00 & EL & G0). set (l1 := moveToNextItemSlot _) in *.
  assert (L2 : lvle l1 lv') by (subst lv'; unfold lvle; cbn; lia). split; [subst lv'; exact O00|]. split; [eapply lvle_trans; [eapply lvle_trans; [exact L0|exact L00]|exact L2]|].
  intros LM. pose proof (lvle_lim _ _ L2 LM) as M1. pose proof (lvle_lim _ _ L00 M1) as M0. rewrite G0 by apply M0. fold l1.
  apply subchk in E1 as (C & ->). destruct M1 as (M1 & _). unfold numItems32, numItems in *. rewrite (w32_small (length (lv_labels l1))), minus32_small by fit.
  rewrite E2. cbn [bind]. now subst lv'.
Qed.
Lemma finishNode_sim p ns : sim (finishNode p ns) (finishNode32 p ns).
Proof.
  intros lv lv' O H. unfold finishNode, finishNode32 in *. apply bindI in H as (l1 & E1 & H). apply bindI in H as (lo & E2 & H). apply OkI in H.
  assert (Q : lvok l1 /\ lvle lv l1).
  { destruct p as [|x p]; [apply OkI in E1; subst l1; split; auto; apply lvle_refl|]. apply bindI in E1 as (hh & E1 & X). apply OkI in X. subst l1. split; [exact O|]. unfold lvle. cbn. lia. }
  destruct Q as (O1 & L1). subst lv'. split; [exact O1|]. split; [unfold lvle in *; cbn; lia|]. intros (_ & _ & LM). cbn [set_nodeCount lv_nodeCount set_bits] in LM.
  rewrite E1. cbn [bind]. rewrite E2. cbn [bind]. cbn [set_bits lv_nodeCount lv_hasPrefix]. rewrite (add32_small (lv_nodeCount l1) 1) by fit. reflexivity.
Qed.

(** Lists of levels. *)
Definition lsim (a : list level) (x y : res (list level)) : Prop := forall b, x = Ok b -> Forall lvok b /\ lsle a b /\ (Forall lvlim b -> y = Ok b).

Lemma upd_level_sim ls i f g : sim f g -> Forall lvok ls -> lsim ls (upd_level ls i f) (upd_level ls i g).
Proof.
  intros S O b H. unfold upd_level in *. apply bindI in H as (lv & E & H). apply bindI in H as (lv' & E2 & H). rewrite E. cbn [bind].
  apply idx_Ok in E. assert (OL : lvok lv) by (rewrite Forall_forall in O; apply O; eapply nth_error_In; eauto).
  destruct (S lv lv' OL E2) as (O' & L & G). pose proof H as HU. apply upd_inv in H as (IL & ->).
  assert (NE : nth_error (set_nth ls i lv') i = Some lv') by (now apply nth_error_set_nth_eq).
  split; [|split].
  - apply Forall_forall. intros x Hx. apply In_nth_error in Hx as (j & Ej). destruct (Nat.eq_dec j i) as [->|N].
    + rewrite NE in Ej. inversion Ej. now subst.
    + rewrite nth_error_set_nth_ne in Ej by auto. rewrite Forall_forall in O. apply O. eapply nth_error_In; eauto.
  - intros j x Ex. destruct (Nat.eq_dec j i) as [->|N].
    + exists lv'. split; auto. rewrite E in Ex. inversion Ex. now subst.
    + exists x. rewrite nth_error_set_nth_ne by auto. split; auto. apply lvle_refl.
  - intros LM. rewrite G; [cbn [bind]; exact HU|]. rewrite Forall_forall in LM. apply LM. eapply nth_error_In; eauto.
Qed.

Variable D : nat.
Hypothesis HD : (N.of_nat D < 536870912)%N.
Definition shorts (kvs : list kv) : Prop := Forall (fun e => length (fst e) <= D) kvs.

Lemma shorts_slice kvs a b sub : shorts kvs -> slice kvs a b = Ok sub -> shorts sub.
Proof.
  intros S H. unfold slice in H. destruct (_ && _); [|discriminate]. apply OkI in H. subst sub. unfold shorts in *. rewrite Forall_forall in *. intros x Hx. apply S.
  rewrite <- (firstn_skipn a kvs). apply in_or_app. right. rewrite <- (firstn_skipn (b - a) (skipn a kvs)). apply in_or_app. auto.
Qed.
Lemma shorts_idx kvs i e : shorts kvs -> idx kvs i = Ok e -> shortkey (fst e) /\ length (fst e) <= D.
Proof.
  intros S H. apply idx_Ok, nth_error_In in H. unfold shorts in S. rewrite Forall_forall in S. specialize (S e H). split; auto. unfold shortkey. lia.
Qed.

Definition recsim (x y : list kv -> nat -> nat -> nat -> list level -> res (list level)) : Prop :=
  forall kvs pd d i ls, shorts kvs -> d <= D -> Forall lvok ls -> lsim ls (x kvs pd d i ls) (y kvs pd d i ls).

Lemma group_some_sim rx ry kvs d i : recsim rx ry -> shorts kvs -> forall todo gs ge ls b, d <= D -> Forall lvok ls ->
  group_loop fp rx c kvs d i todo gs ge ls = Ok (Some b) ->
  Forall lvok b /\ lsle ls b /\ (Forall lvlim b -> group_loop32 fp ry c kvs d i todo gs ge ls = Ok (Some b)).
Proof.
  intros RS S. induction todo as [|todo IH]; intros gs ge ls r DL O H; cbn [group_loop group_loop32] in *.
  - apply OkI in H. assert (r = ls) by congruence. subst r. split; auto. split; [apply lsle_refl|auto].
  - apply bindI in H as (same & E & H). rewrite E. cbn [bind]. destruct same; [now apply IH|].
    destruct (_ && _ && _); [apply OkI in H; discriminate|]. apply bindI in H as (es & E1 & H). rewrite E1. cbn [bind]. apply bindI in H as (b & E2 & H). rewrite E2. cbn [bind].
    apply bindI in H as (l1 & E3 & H). destruct (shorts_idx _ _ _ S E1) as (K & KD). pose proof (idx_lt _ _ _ E2) as DK.
    destruct (Nat.eqb (ge - gs) 1).
    + apply upd_level_sim with (g := addLeaf32 fp c es b d) in E3 as (O1 & L1 & G1); [|apply addLeaf_sim; [exact K|lia]|exact O].
      destruct (IH _ _ _ _ DL O1 H) as (O2 & L2 & G2). split; auto. split; [eapply lsle_trans; eauto|]. intros LM.
      rewrite (G1 (lsle_lim _ _ L2 LM)). cbn [bind]. now apply G2.
    + apply bindI in E3 as (l0 & E0 & E3). apply bindI in E3 as (sub & ES & E3).
      apply upd_level_sim with (g := addInner32 b) in E0 as (O0 & L0 & G0); [|apply addInner_sim|exact O].
      destruct (RS sub (d + 1) (d + 1) (i + 1) l0 (shorts_slice _ _ _ _ S ES) ltac:(lia) O0 _ E3) as (O1 & L1 & G1).
      destruct (IH _ _ _ _ DL O1 H) as (O2 & L2 & G2). split; auto. split; [eapply lsle_trans; [exact L0|eapply lsle_trans; eauto]|]. intros LM.
      pose proof (lsle_lim _ _ L2 LM) as M1. rewrite (G0 (lsle_lim _ _ L1 M1)). cbn [bind]. rewrite ES. cbn [bind]. rewrite (G1 M1). cbn [bind]. now apply G2.
Qed.
Lemma group_none rx kvs d i : forall todo gs ge ls, 0 < gs -> gs <= ge -> group_loop fp rx c kvs d i todo gs ge ls <> Ok None.
Proof.
  induction todo as [|todo IH]; intros gs ge ls G1 G2 H; cbn [group_loop] in H; [discriminate|].
  apply bindI in H as (same & E & H). destruct same; [revert H; apply IH; lia|].
  destruct (Nat.eqb_spec gs 0) as [Z|Z]; [lia|]. rewrite andb_false_r in H. cbn [andb] in H.
  apply bindI in H as (es & E1 & H). apply bindI in H as (b & E2 & H). apply bindI in H as (l1 & E3 & H). revert H. apply IH; lia.
Qed.
Lemma group_none_sim rx ry kvs d i : forall todo ge ls, 0 < ge -> group_loop fp rx c kvs d i todo 0 ge ls = Ok None -> group_loop32 fp ry c kvs d i todo 0 ge ls = Ok None.
Proof.
  induction todo as [|todo IH]; intros ge ls G H; cbn [group_loop group_loop32] in *; [discriminate|].
  apply bindI in H as (same & E & H). rewrite E. cbn [bind]. destruct same; [apply IH; auto; lia|].
  destruct (_ && _ && _); auto. exfalso.
  apply bindI in H as (es & E1 & H). apply bindI in H as (b & E2 & H). apply bindI in H as (l1 & E3 & H). revert H. apply group_none; lia.
Qed.
Lemma group_start rx ry kvs d i todo ls : shorts kvs -> 0 < length kvs -> group_loop fp rx c kvs d i todo 0 0 ls = Ok None -> d < D /\ group_loop32 fp ry c kvs d i todo 0 0 ls = Ok None.
Proof.
  intros S NE H. destruct todo as [|todo]; cbn [group_loop group_loop32] in *; [discriminate|].
  destruct (Nat.ltb_spec 0 (length kvs)); [|lia]. apply bindI in H as (same & E & H). rewrite E. cbn [bind].
  apply bindI in E as (es & E1 & E). apply bindI in E as (ee & E2 & E). apply bindI in E as (bs & E3 & E). apply bindI in E as (be & E4 & E). apply OkI in E.
  rewrite E1 in E2. apply OkI in E2. subst ee. rewrite E3 in E4. apply OkI in E4. subst be. rewrite Nat.eqb_refl in E. subst same.
  destruct (shorts_idx _ _ _ S E1) as (K & KD). pose proof (idx_lt _ _ _ E3) as DK. split; [lia|]. apply group_none_sim with (rx := rx); auto.
Qed.

Lemma ensure_sim ls i : Forall lvok ls -> Forall lvok (ensureLevel ls i) /\ lsle ls (ensureLevel ls i).
Proof.
  intros O. unfold ensureLevel. destruct (_ : bool).
  - split; [apply Forall_app; split; auto; constructor; auto; unfold lvok; cbn; lia|]. intros j x E. exists x. rewrite nth_error_app1 by (apply nth_error_Some; congruence). split; auto. apply lvle_refl.
  - split; auto. apply lsle_refl.
Qed.

Lemma buildNodes_sim : forall fuel, recsim (buildNodes fp fuel c) (buildNodes32 fp fuel c).
Proof.
  induction fuel as [|fuel IH]; intros kvs pd d i ls S DL O b H; cbn [buildNodes buildNodes32] in *; [discriminate|].
  cbv zeta in *. destruct (ensure_sim ls i O) as (O0 & L0). set (l0 := ensureLevel ls i) in *.
  apply bindI in H as (lv & E & H). rewrite E. cbn [bind]. apply bindI in H as (e0 & E0 & H). rewrite E0. cbn [bind].
  apply bindI in H as ((l1, gs) & E1 & H). apply bindI in H as (r & E2 & H). destruct (shorts_idx _ _ _ S E0) as (K & KD).
  pose proof (idx_lt _ _ _ E0) as NE. assert (NL : Forall lvlim l0 -> numItems32 lv = numItems lv).
  { intros LM. apply idx_Ok, nth_error_In in E. rewrite Forall_forall in LM. destruct (LM lv E) as (Q & _). unfold numItems32, numItems. rewrite w32_small by fit. reflexivity. }
  assert (Q : Forall lvok l1 /\ lsle l0 l1 /\ (gs = 0 \/ gs = 1) /\ (Forall lvlim l1 ->
     (if length (fst e0) <=? d then ls0 <- upd_level l0 i (addTerminator32 fp c e0 d);; Ok (ls0, 1) else Ok (l0, 0)) = Ok (l1, gs))).
  { destruct (Nat.leb (length (fst e0)) d).
    - apply bindI in E1 as (l2 & E1 & X). apply OkI in X. assert (l2 = l1) by (now apply (f_equal fst) in X). assert (1 = gs) by (now apply (f_equal snd) in X). subst l2 gs.
      apply upd_level_sim with (g := addTerminator32 fp c e0 d) in E1 as (O1 & L1 & G1); [|apply addTerminator_sim; [exact K|lia]|exact O0].
      split; auto. split; auto. split; auto. intros LM. now rewrite (G1 LM).
    - apply OkI in E1. assert (l0 = l1) by (now apply (f_equal fst) in E1). assert (0 = gs) by (now apply (f_equal snd) in E1). subst l1 gs. split; auto. split; [apply lsle_refl|auto]. }
  destruct Q as (O1 & L1 & GS & G1). destruct r as [l2|].
  - apply bindI in H as (p & EP & H). destruct (group_some_sim _ _ _ _ _ IH S _ _ _ _ _ DL O1 E2) as (O2 & L2 & G2).
    assert (SF : sim (finishNode p (numItems lv)) (finishNode32 p (numItems lv))) by apply finishNode_sim.
    destruct (upd_level_sim l2 i _ _ SF O2 _ H) as (O3 & L3 & G3). split; auto.
    split; [eapply lsle_trans; [exact L0|]; eapply lsle_trans; [exact L1|]; eapply lsle_trans; eauto|]. intros LM.
    pose proof (lsle_lim _ _ L3 LM) as M2. pose proof (lsle_lim _ _ L2 M2) as M1. pose proof (lsle_lim _ _ L1 M1) as M0.
    rewrite (G1 M1). cbn [bind]. rewrite (G2 M2). cbn [bind]. rewrite EP. cbn [bind]. rewrite (NL M0). exact (G3 LM).
  - assert (gs = 0). { destruct GS as [->| ->]; auto. exfalso. revert E2. apply group_none; lia. } subst gs.
    apply (group_start _ (buildNodes32 fp fuel c)) in E2 as (DL' & E2); auto.
    assert (DL2 : d + 1 <= D) by lia. destruct (IH _ _ _ _ _ S DL2 O1 _ H) as (O2 & L2 & G2). split; auto. split; [eapply lsle_trans; [exact L0|eapply lsle_trans; eauto]|]. intros LM.
    rewrite (G1 (lsle_lim _ _ L2 LM)). cbn [bind]. rewrite E2. cbn [bind]. now apply G2.
Qed.
End B.
