(** * ArtTop: the sequential ART properties, from the representation theorem. *)
From Verif Require Import Base BitsModel BitsFacts VecModel VecProofs VecProofs2 ArtNode
  ArtNodeProofs ArtNodeProofs2 ArtNodeProofs3 ArtModel ArtTree ArtTree2 ArtRep ArtRep2 ArtTree3 ArtSeq ArtMono ArtSeq2 ArtSeq3 ArtSpec.
Ltac Zify.zify_post_hook ::= Z.div_mod_to_equations.

Lemma returns_det {A} (f : nat -> res A) x y : returns f x -> returns f y -> x = y.
Proof.
  intros (N & H1) (M & H2). specialize (H1 (Nat.max N M) ltac:(lia)). specialize (H2 (Nat.max N M) ltac:(lia)).
  rewrite H1 in H2. now apply Ok_inj in H2.
Qed.

Definition is_map (A : aheap) (h : list op) : Prop := forall k v, contents A k v <-> latest h k = Some v.

Lemma putted_map A A' h k v : is_map A h -> putted A A' k v -> is_map A' (OPut k v :: h).
Proof.
  intros HM (P1 & P2) k' v'. cbn [latest]. destruct (beqb k k') eqn:E.
  - apply beqb_eq in E. subst k'. rewrite P1. split; [intros ->; auto|]. intros X; now inversion X.
  - rewrite P2; [apply HM|]. intros ->. rewrite beqb_refl in E. discriminate.
Qed.
Lemma deleted_map A A' h k : is_map A h -> deleted A A' k -> is_map A' (ODelete k :: h).
Proof.
  intros HM (P1 & P2) k' v'. cbn [latest]. destruct (beqb k k') eqn:E.
  - apply beqb_eq in E. subst k'. split; [intros X; exfalso; eapply P1; eauto|discriminate].
  - rewrite P2; [apply HM|]. intros ->. rewrite beqb_refl in E. discriminate.
Qed.

Lemma Get_map m r A h k : hrep m r A -> is_map A h -> valid k -> forall fuel, length k + 1 <= fuel -> Get fuel m k = Ok (latest h k).
Proof.
  intros H HM (HK & _) fuel Hf. destruct (Get_spec m r A k fuel H HK Hf) as (o & E & HO). rewrite E. f_equal.
  destruct o as [v|].
  - symmetry. apply HM, HO. reflexivity.
  - destruct (latest h k) as [v|] eqn:EL; auto. apply HM, HO in EL. discriminate.
Qed.
Lemma Get_returns m r A h k : hrep m r A -> is_map A h -> valid k -> returns (fun f => Get f m k) (latest h k).
Proof. intros. exists (length k + 1). intros. eapply Get_map; eauto. Qed.

Lemma Delete_returns_post m r A k m' : hrep m r A -> valid k -> returns (fun f => Delete f m k) m' -> del_post m' A k.
Proof.
  intros H (HK & _) HR. destruct (Delete_spec m r A k H HK) as [(m1 & v & _ & PO & R)|[(AB & _ & R)|(AB & _ & R)]].
  - assert (E : m1 = m') by exact (returns_det _ _ _ R HR). now subst.
  - assert (E : m = m') by exact (returns_det _ _ _ R HR). subst. exists r, A. split; auto using absent_deleted.
  - destruct HR as (N & HR). specialize (HR N (le_n _)). cbn in HR. rewrite R in HR. discriminate.
Qed.

Lemma runs_rep : forall ops m m' outs r A h, runs m ops m' outs -> Forall valid_op ops -> hrep m r A -> is_map A h ->
  outs = answers h ops /\ exists r' A', hrep m' r' A' /\ is_map A' (rev ops ++ h).
Proof.
  induction ops as [|o ops IH]; intros m m' outs r A h HR HV H HM; inversion HV as [|? ? V1 V2]; subst; inversion HR; subst.
  - split; auto. exists r, A. auto.
  - destruct V1 as ((VK & FK) & (VV & FV)). destruct (Put_spec m r A k v H VK FK FV) as (m2 & r' & A' & H' & P & R).
    assert (EM : m2 = m1) by (match goal with X : returns (fun f => Put f _ _ _) _ |- _ => exact (returns_det _ _ _ R X) end). subst m2.
    destruct (IH m1 m' outs r' A' (OPut k v :: h)) as (E & r2 & A2 & H2 & M2); auto. { eapply putted_map; eauto. }
    split; auto. exists r2, A2. split; auto. cbn [rev]. now rewrite <- app_assoc.
  - assert (EO : o0 = latest h k) by (match goal with X : returns (fun f => Get f _ _) _ |- _ => exact (returns_det _ _ _ X (Get_returns m r A h k H HM V1)) end). subst o0.
    destruct (IH m m' outs0 r A (OGet k :: h)) as (E & r2 & A2 & H2 & M2); auto.
    cbn [answers]. split; [congruence|]. exists r2, A2. split; auto. cbn [rev]. now rewrite <- app_assoc.
  - destruct (Delete_returns_post m r A k m1 H V1) as (r' & A' & H' & P); auto.
    destruct (IH m1 m' outs r' A' (ODelete k :: h)) as (E & r2 & A2 & H2 & M2); auto. { eapply deleted_map; eauto. }
    split; auto. exists r2, A2. split; auto. cbn [rev]. now rewrite <- app_assoc.
Qed.

Lemma New_map : is_map (aset (fun _ => None) 1 (Some (mkA [] 0 None cnone))) [].
Proof. intros k v. split; [intros H; exfalso; eapply contents_New; eauto|discriminate]. Qed.

Lemma reach_rep m : reachable m -> exists r A h, hrep m r A /\ is_map A h.
Proof.
  intros (ops & outs & V & R). destruct (runs_rep _ _ _ _ _ _ _ R V hrep_New New_map) as (_ & r & A & H & M). eauto.
Qed.

(** ** C01 *)
Theorem art_map ops m outs : Forall valid_op ops -> runs New ops m outs ->
  outs = answers [] ops /\ forall k, valid k -> returns (fun f => Get f m k) (latest (rev ops) k).
Proof.
  intros V R. destruct (runs_rep _ _ _ _ _ _ _ R V hrep_New New_map) as (E & r & A & H & M). split; auto.
  rewrite app_nil_r in M. intros k VK. eapply Get_returns; eauto.
Qed.

Lemma reachable_step m o m' outs : reachable m -> valid_op o -> runs m [o] m' outs -> reachable m'.
Proof.
  intros (ops & outs0 & V & R) VO R1. exists (ops ++ [o]), (outs0 ++ outs). split.
  { apply Forall_app. auto. }
  clear V. induction R; cbn; auto; econstructor; eauto.
Qed.

Lemma key_below m r A D : hrep m r A -> wbound A D -> forall d n a, D - length (aW a) <= d -> A n = Some a -> n <> r ->
  exists k v, contents A k v /\ is_prefix (aW a) k.
Proof.
  intros H HD. pose proof (h_inv _ _ _ H) as I. induction d as [|d IH]; intros n a Hd Hn Hr;
    destruct (h_node _ _ _ H _ _ Hn) as (c & Hc & _ & R); pose proof (nr_occ _ _ _ R (proj2 (Nat.eqb_neq _ _) Hr)) as O;
    (destruct (aLeaf a) as [v|] eqn:EL; [exists (aW a), v; split; [exists n, a; split; auto; left; auto|apply is_prefix_refl]|]); cbn [nleaf] in O;
    (destruct (firstChild_spec (c_node c) (nr_layout _ _ _ R) ltac:(lia)) as (b & p & _ & EV));
    rewrite (nr_V _ _ _ R) in EV; (destruct (aCh a b) as [[k v|m0]|] eqn:E; [exists k, v; split; [exists n, a; split; auto; right; eauto|] | |discriminate]).
  - eapply is_prefix_trans; [apply is_prefix_app_l|]. eapply (ai_leaf r A I); eauto.
  - destruct (ai_node r A I _ _ _ _ Hn E) as (am & Hm & _ & L). pose proof (HD _ _ Hm). lia.
  - eapply is_prefix_trans; [apply is_prefix_app_l|]. eapply (ai_leaf r A I); eauto.
  - destruct (ai_node r A I _ _ _ _ Hn E) as (am & Hm & P & L).
    destruct (IH m0 am) as (k & v & HC & HP); auto; [lia| |].
    + intros ->. exact (root_no_parent r A I _ _ _ Hn E).
    + exists k, v. split; auto. eapply is_prefix_trans; [|exact HP]. eapply is_prefix_trans; [apply is_prefix_app_l|exact P].
Qed.

Lemma key_below_child m r A n a b p : hrep m r A -> A n = Some a -> aCh a b = Some p ->
  exists k v, contents A k v /\ is_prefix (aW a ++ [b]) k.
Proof.
  intros H Hn E. pose proof (h_inv _ _ _ H) as I. destruct p as [k v|m0].
  - exists k, v. split; [exists n, a; split; auto; right; eauto|]. eapply (ai_leaf r A I); eauto.
  - destruct (ai_node r A I _ _ _ _ Hn E) as (am & Hm & P & L). destruct (wbound_exists _ _ _ H) as (D & HD).
    destruct (key_below m r A D H HD _ m0 am (le_n _) Hm) as (k & v & HC & HP).
    + intros ->. exact (root_no_parent r A I _ _ _ Hn E).
    + exists k, v. split; auto. eapply is_prefix_trans; eauto.
Qed.

Lemma two_below m r A n a : hrep m r A -> A n = Some a -> n <> r ->
  exists k1 v1 k2 v2, k1 <> k2 /\ contents A k1 v1 /\ contents A k2 v2 /\ is_prefix (aW a) k1 /\ is_prefix (aW a) k2.
Proof.
  intros H Hn Hr. destruct (h_node _ _ _ H _ _ Hn) as (c & Hc & _ & R). pose proof (nr_occ _ _ _ R (proj2 (Nat.eqb_neq _ _) Hr)) as O.
  rewrite (nrep_count _ _ _ R) in O. set (f := fun b => isSome (aCh a b)) in *.
  assert (PP : forall b k, is_prefix (aW a ++ [b]) k -> is_prefix (aW a) k) by (intros; eapply is_prefix_trans; [apply is_prefix_app_l|eauto]).
  destruct (aLeaf a) as [v|] eqn:EL; cbn [nleaf] in O.
  - destruct (cnt_exists f 256 ltac:(lia)) as (b & _ & Hb). unfold f in Hb. destruct (aCh a b) as [p|] eqn:E; [|discriminate].
    destruct (key_below_child m r A n a b p H Hn E) as (k & w & HC & HP). exists (aW a), v, k, w. split; [|split; [|split; [|split]]]; auto.
    + intros EE. rewrite <- EE in HP. apply is_prefix_length in HP. rewrite app_length in HP. cbn in HP. lia.
    + exists n, a. split; auto. left. auto.
    + apply is_prefix_refl.
    + eauto.
  - destruct (cnt_select_exists f 256 0 ltac:(lia)) as (b1 & L1 & F1 & C1). destruct (cnt_select_exists f 256 1 ltac:(lia)) as (b2 & L2 & F2 & C2).
    unfold f in F1, F2. destruct (aCh a b1) as [p1|] eqn:E1; [|discriminate]. destruct (aCh a b2) as [p2|] eqn:E2; [|discriminate].
    destruct (key_below_child m r A n a b1 p1 H Hn E1) as (k1 & w1 & HC1 & HP1). destruct (key_below_child m r A n a b2 p2 H Hn E2) as (k2 & w2 & HC2 & HP2).
    exists k1, w1, k2, w2. split; [|split; [|split; [|split]]]; eauto. intros ->.
    apply is_prefix_snoc in HP1 as (_ & X1). apply is_prefix_snoc in HP2 as (_ & X2). assert (b1 = b2) by congruence. subst b2. congruence.
Qed.

(** The descent of a key that shares a non-empty prefix with exactly one stored key meets that key. *)
Lemma lone_leaf m r A key q k' v' : hrep m r A -> q <> [] -> is_prefix q key -> is_prefix q k' -> contents A k' v' ->
  (forall k v, contents A k v -> is_prefix q k -> k = k') -> ends_open r A key -> False.
Proof.
  intros H Hq Pk Pk' HC HU (n & a & CP & Ha & HE). destruct (cpath_apath _ _ _ _ CP) as (i & HA). pose proof (h_inv _ _ _ H) as I.
  assert (NP : forall n a, A n = Some a -> ~ is_prefix q (aW a)).
  { intros n0 a0 H0 P. destruct (Nat.eq_dec n0 r) as [->|Hr].
    - destruct (ai_root r A I) as (a1 & X & EW & _). assert (a1 = a0) by congruence. subst a1. rewrite EW in P.
      apply is_prefix_length in P. destruct q; [congruence|cbn in P; lia].
    - destruct (two_below m r A n0 a0 H H0 Hr) as (k1 & v1 & k2 & v2 & NE & C1 & C2 & P1 & P2). apply NE.
      rewrite (HU k1 v1), (HU k2 v2); auto; eapply is_prefix_trans; eauto. }
  assert (PQ : forall i n a, aiter r A key i = Some n -> A n = Some a -> is_prefix (aW a) q /\ length (aW a) < length q /\ apath r A k' n).
  { intros j. induction j as [|j IH]; cbn [aiter]; intros n0 a0 HJ H0.
    - assert (n0 = r) by congruence. subst n0. destruct (ai_root r A I) as (a1 & X & EW & _). assert (a1 = a0) by congruence. subst a1. rewrite EW.
      split; [exists q; reflexivity|]. split; [destruct q; [congruence|cbn; lia]|apply apath_root].
    - destruct (aiter r A key j) as [nj|] eqn:EJ; [|discriminate].
      apply anext_Some in HJ as (aj & b & Hj & Hb & Hc). destruct (IH nj aj eq_refl Hj) as (P1 & P2 & P3).
      assert (X : nth_error key (length (aW aj)) = nth_error k' (length (aW aj))).
      { rewrite (is_prefix_nth q key) by auto. rewrite (is_prefix_nth q k') by auto. reflexivity. }
      assert (AP : apath r A k' n0). { eapply apath_step; [exact P3|]. apply anext_Some. exists aj, b. rewrite <- X. auto. }
      pose proof (contents_path_prefix r A I k' v' n0 a0 HC AP H0) as PW.
      destruct (Nat.lt_ge_cases (length (aW a0)) (length q)) as [L|L].
      + split; auto. eapply is_prefix_total; eauto. lia.
      + exfalso. apply (NP n0 a0 H0). eapply is_prefix_total; eauto. }
  destruct (PQ i n a HA Ha) as (P1 & P2 & P3).
  destruct HE as [HE|[HE|(b & Hb & HE)]].
  - apply HE, passes_prefix. eapply is_prefix_trans; eauto.
  - apply is_prefix_length in Pk. lia.
  - assert (X : nth_error k' (length (aW a)) = Some b).
    { rewrite <- Hb. rewrite (is_prefix_nth q key) by auto. rewrite (is_prefix_nth q k') by auto. reflexivity. }
    assert (HN : anext A k' n = None) by (unfold anext; rewrite Ha, X, HE; reflexivity).
    rewrite (contents_at r A I k' n a v' P3 HN Ha) in HC.
    rewrite (local_holds r A I n a k' v') in HC; auto; [|apply is_prefix_length in Pk'; lia]. unfold alookup in HC. rewrite X, HE in HC. discriminate.
Qed.

Lemma child_V root n a b : nrep root n a -> b < 256 -> child n b = option_map conv (aCh a b).
Proof. intros R Hb. unfold child. destruct (find_rep _ _ _ R b Hb) as (s & p & E & _). now rewrite E. Qed.

Lemma cnt_filter f n : cnt f n = length (filter f (seq 0 n)).
Proof.
  induction n as [|n IH]; [reflexivity|]. rewrite cnt_S, seq_S, filter_app, app_length, <- IH. cbn.
  destruct (f n); cbn; lia.
Qed.

Lemma count_nchild root n a : nrep root n a -> children_count n = nchild n.
Proof.
  intros R. unfold children_count, nchild. rewrite <- cnt_filter. apply cnt_ext. intros b Hb.
  rewrite (child_V _ _ _ _ R Hb), (nr_V _ _ _ R). destruct (aCh a b); reflexivity.
Qed.
Lemma entry_nleaf root n a : nrep root n a -> entry_count n = nchild n + nleaf (aLeaf a).
Proof.
  intros R. unfold entry_count. rewrite (count_nchild _ _ _ R), (nr_pleaf _ _ _ R). destruct (aLeaf a); reflexivity.
Qed.

Lemma in_tree_live m r A a : hrep m r A -> in_tree m a -> exists x, A a = Some x.
Proof.
  intros H T. induction T as [a E|a n b a' T IH (v & Hn) Hb Hc].
  - rewrite (h_root _ _ _ H) in E. assert (a = r) by congruence. subst a. destruct (ai_root r A (h_inv _ _ _ H)) as (x & Hx & _). eauto.
  - destruct IH as (x & Hx). destruct (h_node _ _ _ H _ _ Hx) as (c & Hc' & _ & R).
    unfold cell_at in Hc'. rewrite Hn in Hc'. inversion Hc'; subst c. cbn [c_node] in R.
    rewrite (child_V _ _ _ _ R Hb) in Hc. destruct (aCh x b) as [[|m0]|] eqn:E; try discriminate. cbn in Hc. inversion Hc; subst.
    destruct (ai_node r A (h_inv _ _ _ H) _ _ _ _ Hx E) as (y & Hy & _). eauto.
Qed.

Lemma live_has_key m r A D : hrep m r A -> wbound A D -> forall d n a, D - length (aW a) <= d -> A n = Some a -> n <> r -> exists k v, contents A k v.
Proof.
  intros H HD. pose proof (h_inv _ _ _ H) as I. induction d as [|d IH]; intros n a Hd Hn Hr;
    destruct (h_node _ _ _ H _ _ Hn) as (c & Hc & _ & R); pose proof (nr_occ _ _ _ R (proj2 (Nat.eqb_neq _ _) Hr)) as O;
    (destruct (aLeaf a) as [v|] eqn:EL; [exists (aW a), v, n, a; split; auto; left; auto|]); cbn [nleaf] in O;
    (destruct (firstChild_spec (c_node c) (nr_layout _ _ _ R) ltac:(lia)) as (b & p & _ & EV));
    rewrite (nr_V _ _ _ R) in EV; (destruct (aCh a b) as [[k v|m0]|] eqn:E; [exists k, v, n, a; split; auto; right; eauto| |discriminate]);
    destruct (ai_node r A I _ _ _ _ Hn E) as (am & Hm & _ & L).
  - pose proof (HD _ _ Hm). lia.
  - apply (IH m0 am); auto; [lia|]. intros ->. exact (root_no_parent r A I _ _ _ Hn E).
Qed.

(** What follows holds of any set of trees that meet the invariant and are closed under calls. *)
Section Reach.
Variable rch : mem -> Prop.
Hypothesis rch_rep : forall m, rch m -> exists r A h, hrep m r A /\ is_map A h.
Hypothesis rch_step : forall m o m' outs, rch m -> valid_op o -> runs m [o] m' outs -> rch m'.

Lemma rch_map m : rch m -> exists f : bytes -> option bytes, forall k, valid k -> returns (fun fu => Get fu m k) (f k).
Proof. intros H. destruct (rch_rep m H) as (r & A & h & HR & M). exists (latest h). intros. eapply Get_returns; eauto. Qed.

(** ** C02 *)
Theorem put_top m k v : rch m -> valid k -> valid v ->
  exists m', returns (fun f => Put f m k v) m' /\ rch m' /\
    returns (fun f => Get f m' k) (Some v) /\
    forall k' o, valid k' -> k' <> k -> returns (fun f => Get f m k') o -> returns (fun f => Get f m' k') o.
Proof.
  intros HR VK VV. destruct (rch_rep m HR) as (r & A & h & H & M).
  destruct VK as (VK & FK). destruct VV as (VV & FV).
  destruct (Put_spec m r A k v H VK FK FV) as (m' & r' & A' & H' & P & R).
  pose proof (putted_map _ _ _ _ _ M P) as M'.
  exists m'. split; [exact R|]. split.
  { eapply (rch_step m (OPut k v) m' []); auto. { split; split; auto. } econstructor; [exact R|constructor]. }
  split.
  - replace (Some v) with (latest (OPut k v :: h) k) by (cbn; now rewrite beqb_refl). eapply Get_returns; eauto. split; auto.
  - intros k' o V' Hne HG. assert (E : latest h k' = o) by exact (returns_det _ _ _ (Get_returns m r A h k' H M V') HG). subst o.
    replace (latest h k') with (latest (OPut k v :: h) k').
    + eapply Get_returns; eauto.
    + cbn. destruct (beqb k k') eqn:E; auto. apply beqb_eq in E. congruence.
Qed.

(** ** C03, C04 *)
Theorem delete_top m k : rch m -> valid k ->
  (exists m', returns (fun f => Delete f m k) m' /\ rch m' /\ returns (fun f => Get f m' k) None /\
    forall k' o, valid k' -> k' <> k -> returns (fun f => Get f m k') o -> returns (fun f => Get f m' k') o) \/
  (returns (fun f => Get f m k) None /\ diverges (fun f => Delete f m k)).
Proof.
  intros HR VK. destruct (rch_rep m HR) as (r & A & h & H & M).
  assert (GO : forall m', returns (fun f => Delete f m k) m' -> (exists m', returns (fun f => Delete f m k) m' /\ rch m' /\ returns (fun f => Get f m' k) None /\
    forall k' o, valid k' -> k' <> k -> returns (fun f => Get f m k') o -> returns (fun f => Get f m' k') o)).
  { intros m' R. exists m'. split; auto. destruct (Delete_returns_post m r A k m' H VK R) as (r' & A' & H' & P).
    pose proof (deleted_map _ _ _ _ M P) as M'. split; [|split].
    - eapply (rch_step m (ODelete k) m' []); auto. econstructor; [exact R|constructor].
    - replace None with (latest (ODelete k :: h) k) by (cbn; now rewrite beqb_refl). eapply Get_returns; eauto.
    - intros k' o V' Hne HG. assert (E : latest h k' = o) by exact (returns_det _ _ _ (Get_returns m r A h k' H M V') HG). subst o.
      replace (latest h k') with (latest (ODelete k :: h) k').
      + eapply Get_returns; eauto.
      + cbn. destruct (beqb k k') eqn:E; auto. apply beqb_eq in E. congruence. }
  destruct (Delete_spec m r A k H (proj1 VK)) as [(m1 & v & _ & PO & R)|[(AB & _ & R)|(AB & _ & R)]].
  - left. apply (GO m1). exact R.
  - left. apply (GO m). exact R.
  - right. split; [|exact R]. replace None with (latest h k).
    + eapply Get_returns; eauto.
    + destruct (latest h k) as [v|] eqn:E; auto. exfalso. apply (AB v). now apply M.
Qed.

(** Delete of an absent key that shares a non-empty prefix with exactly one stored key never returns. *)
Theorem delete_lone_diverges m k q k' v' : rch m -> valid k -> q <> [] -> is_prefix q k -> is_prefix q k' -> k' <> k ->
  valid k' -> returns (fun f => Get f m k') (Some v') ->
  (forall k1 v1, valid k1 -> is_prefix q k1 -> returns (fun f => Get f m k1) (Some v1) -> k1 = k') ->
  diverges (fun f => Delete f m k).
Proof.
  intros HR VK Hq P P' Hne VK' HG HU. destruct (rch_rep m HR) as (r & A & h & H & M).
  assert (CV : forall k v, contents A k v -> valid k).
  { intros k0 v0 (n & a & Hn & Hh). destruct (h_node _ _ _ H _ _ Hn) as (c & _ & _ & R).
    destruct (nr_keys _ _ _ R k0 v0 Hh) as (F & _ & B). split; auto. }
  assert (CG : forall k v, contents A k v -> returns (fun f => Get f m k) (Some v)).
  { intros k0 v0 HC. pose proof (CV _ _ HC). apply M in HC. rewrite <- HC. eapply Get_returns; eauto. }
  assert (HC : contents A k' v'). { apply M. exact (returns_det _ _ _ (Get_returns m r A h k' H M VK') HG). }
  destruct (Delete_spec m r A k H (proj1 VK)) as [(m1 & v & C1 & PO & R)|[(AB & EO & R)|(AB & _ & R)]].
  - exfalso. apply Hne. symmetry. apply (HU k v); auto.
  - exfalso. eapply lone_leaf; [exact H|exact Hq|exact P|exact P'|exact HC| |exact EO]. intros k1 v1 C1 P1. apply (HU k1 v1); auto. eauto.
  - exact R.
Qed.

Theorem delete_effect m k m' : rch m -> valid k -> returns (fun f => Delete f m k) m' ->
  rch m' /\ returns (fun f => Get f m' k) None /\
  forall k' o, valid k' -> k' <> k -> returns (fun f => Get f m k') o -> returns (fun f => Get f m' k') o.
Proof.
  intros HR VK R. destruct (delete_top m k HR VK) as [(m1 & R1 & P)|(_ & D)].
  - assert (E : m1 = m') by exact (returns_det _ _ _ R1 R). subst m1. exact P.
  - destruct R as (N & R). specialize (R N (le_n _)). cbn in R. rewrite D in R. discriminate.
Qed.
Theorem delete_no_panic m k fuel : rch m -> valid k -> Delete fuel m k <> Panic.
Proof.
  intros HR VK E. destruct (delete_top m k HR VK) as [(m1 & (N & R) & _)|(_ & D)].
  - destruct (Nat.le_ge_cases N fuel) as [L|L]; [rewrite R in E by auto; discriminate|].
    destruct (Delete_mono fuel N m k L) as [X|X]; rewrite E in X; [discriminate|]. rewrite R in X by auto. discriminate.
  - specialize (D fuel). cbn in D. congruence.
Qed.
Theorem delete_present m k v : rch m -> valid k -> returns (fun f => Get f m k) (Some v) ->
  exists m', returns (fun f => Delete f m k) m'.
Proof.
  intros HR VK HG. destruct (delete_top m k HR VK) as [(m1 & R1 & P)|(G & _)]; [eauto|].
  exfalso. assert (E : Some v = None) by exact (returns_det _ _ _ HG G). discriminate.
Qed.

(** ** C05 *)
Theorem long_paths m p x1 x2 v1 v2 : rch m -> valid (p ++ x1) -> valid (p ++ x2) -> valid v1 -> valid v2 -> x1 <> x2 ->
  (forall x, valid (p ++ x) -> returns (fun f => Get f m (p ++ x)) None) ->
  exists m1 m2 m3, returns (fun f => Put f m (p ++ x1) v1) m1 /\ returns (fun f => Put f m1 (p ++ x2) v2) m2 /\
    returns (fun f => Get f m2 (p ++ x1)) (Some v1) /\ returns (fun f => Get f m2 (p ++ x2)) (Some v2) /\
    (forall p' x, valid (p' ++ x) -> length p' = length p -> p' <> p -> forall o,
        returns (fun f => Get f m (p' ++ x)) o -> returns (fun f => Get f m2 (p' ++ x)) o) /\
    returns (fun f => Delete f m2 (p ++ x1)) m3 /\
    returns (fun f => Get f m3 (p ++ x2)) (Some v2) /\
    (forall x, valid (p ++ x) -> x <> x2 -> returns (fun f => Get f m3 (p ++ x)) None) /\
    (forall p' x, valid (p' ++ x) -> length p' = length p -> p' <> p -> forall o,
        returns (fun f => Get f m (p' ++ x)) o -> returns (fun f => Get f m3 (p' ++ x)) o).
Proof.
  intros HR V1 V2 W1 W2 Hne H0.
  destruct (put_top m (p ++ x1) v1 HR V1 W1) as (m1 & R1 & HR1 & G1 & F1).
  destruct (put_top m1 (p ++ x2) v2 HR1 V2 W2) as (m2 & R2 & HR2 & G2 & F2).
  assert (N12 : p ++ x1 <> p ++ x2) by (intros E; apply app_inv_head in E; auto).
  assert (G21 : returns (fun f => Get f m2 (p ++ x1)) (Some v1)) by (apply F2; auto).
  destruct (delete_present m2 (p ++ x1) v1 HR2 V1 G21) as (m3 & R3).
  destruct (delete_effect m2 (p ++ x1) m3 HR2 V1 R3) as (HR3 & G3 & F3).
  assert (NP : forall p' x y, length p' = length p -> p' <> p -> p' ++ x <> p ++ y).
  { intros p' x y L N E. apply N. assert (E2 : firstn (length p) (p' ++ x) = firstn (length p) (p ++ y)) by (now rewrite E).
    rewrite <- L in E2 at 1. now rewrite !firstn_app, !Nat.sub_diag, !firstn_all, !app_nil_r in E2. }
  exists m1, m2, m3. repeat (split; [assumption|]). split; [|split; [exact R3|split; [|split]]].
  - intros p' x VV L N o HO. apply F2; auto. 
  - apply F3; auto.
  - intros x VV N. destruct (list_eq_dec Nat.eq_dec x x1) as [->|Nx]; [exact G3|].
    apply F3; auto. { intros E. apply app_inv_head in E. auto. }
    apply F2; auto. { intros E. apply app_inv_head in E. auto. }
    apply F1; auto. intros E. apply app_inv_head in E. auto.
  - intros p' x VV L N o HO. apply F3; auto. 
Qed.

(** ** C06 *)
Theorem prefix_keys m k e v : rch m -> valid (k ++ e) -> valid v -> e <> [] ->
  (exists m', returns (fun f => Put f m k v) m' /\ returns (fun f => Get f m' k) (Some v) /\
    forall o, returns (fun f => Get f m (k ++ e)) o -> returns (fun f => Get f m' (k ++ e)) o) /\
  (exists m', returns (fun f => Put f m (k ++ e) v) m' /\ returns (fun f => Get f m' (k ++ e)) (Some v) /\
    forall o, returns (fun f => Get f m k) o -> returns (fun f => Get f m' k) o) /\
  (forall w, returns (fun f => Get f m k) (Some w) ->
    exists m', returns (fun f => Delete f m k) m' /\ returns (fun f => Get f m' k) None /\
    forall o, returns (fun f => Get f m (k ++ e)) o -> returns (fun f => Get f m' (k ++ e)) o) /\
  (forall w, returns (fun f => Get f m (k ++ e)) (Some w) ->
    exists m', returns (fun f => Delete f m (k ++ e)) m' /\ returns (fun f => Get f m' (k ++ e)) None /\
    forall o, returns (fun f => Get f m k) o -> returns (fun f => Get f m' k) o).
Proof.
  intros HR VE VV Hne.
  assert (VK : valid k).
  { destruct VE as (V1 & V2). split; [apply Forall_app in V1; tauto|]. unfold fits32 in *. rewrite app_length in V2. lia. }
  assert (N : k <> k ++ e). { intros E. rewrite <- (app_nil_r k) in E at 1. apply app_inv_head in E. auto. }
  repeat split.
  - destruct (put_top m k v HR VK VV) as (m1 & R1 & _ & G1 & F1). exists m1. repeat split; auto.
  - destruct (put_top m (k ++ e) v HR VE VV) as (m1 & R1 & _ & G1 & F1). exists m1. repeat split; auto.
  - intros w HG. destruct (delete_present m k w HR VK HG) as (m1 & R1). destruct (delete_effect m k m1 HR VK R1) as (_ & G1 & F1).
    exists m1. repeat split; auto.
  - intros w HG. destruct (delete_present m (k ++ e) w HR VE HG) as (m1 & R1). destruct (delete_effect m (k ++ e) m1 HR VE R1) as (_ & G1 & F1).
    exists m1. repeat split; auto.
Qed.

(** ** C09 *)
Theorem occupancy m a n : rch m -> in_tree m a -> node_at m a n ->
  min_children (n_type n) <= children_count n <= max_children (n_type n) /\
  (m_root m <> PNode a -> 2 <= entry_count n) /\
  n_num n = children_count n mod 256.
Proof.
  intros HR T (v & Hn). destruct (rch_rep m HR) as (r & A & h & H & M).
  destruct (in_tree_live _ _ _ _ H T) as (x & Hx). destruct (h_node _ _ _ H _ _ Hx) as (c & Hc & _ & R).
  unfold cell_at in Hc. rewrite Hn in Hc. inversion Hc; subst c. cbn [c_node] in R.
  rewrite (count_nchild _ _ _ R), (entry_nleaf _ _ _ R). split; [|split].
  - split.
    + pose proof (nr_min _ _ _ R) as X. destruct (n_type n); exact X.
    + pose proof (nr_layout _ _ _ R) as (_ & X & _). destruct (n_type n); exact X.
  - intros Hroot. apply (nr_occ _ _ _ R). apply Nat.eqb_neq. intros ->. apply Hroot. apply (h_root _ _ _ H).
  - pose proof (nr_layout _ _ _ R) as (X & _). exact X.
Qed.

Theorem empty_tree m : rch m -> (forall k, valid k -> returns (fun f => Get f m k) None) ->
  exists a n, m_root m = PNode a /\ node_at m a n /\ n_type n = Node4 /\ entry_count n = 0 /\ (forall a', in_tree m a' -> a' = a).
Proof.
  intros HR HG. destruct (rch_rep m HR) as (r & A & h & H & M). pose proof (h_inv _ _ _ H) as I.
  assert (AB : forall k v, ~ contents A k v).
  { intros k v HC. assert (VK : valid k).
    { destruct HC as (n & a & Hn & Hh). destruct (h_node _ _ _ H _ _ Hn) as (c & _ & _ & R).
      destruct (nr_keys _ _ _ R k v Hh) as (F & _ & B). split; auto. }
    pose proof (HG k VK) as G1. apply M in HC. assert (E : latest h k = None) by exact (returns_det _ _ _ (Get_returns m r A h k H M VK) G1). congruence. }
  destruct (wbound_exists _ _ _ H) as (D & HD).
  assert (LV : forall n a, A n = Some a -> n = r).
  { intros n a Hn. destruct (Nat.eq_dec n r); auto. exfalso. destruct (live_has_key m r A D H HD _ n a (le_n _) Hn n0) as (k & v & HC). eapply AB; eauto. }
  destruct (ai_root r A I) as (a & Ha & EW & _). destruct (h_node _ _ _ H _ _ Ha) as (c & Hc & _ & R).
  exists r, (c_node c). split; [apply (h_root _ _ _ H)|]. split.
  { exists (c_ver c). unfold cell_at in Hc. rewrite Hc. now destruct c. }
  assert (EL : aLeaf a = None). { destruct (aLeaf a) as [v|] eqn:E; auto. exfalso. apply (AB (aW a) v). exists r, a. split; auto. left; auto. }
  assert (ECh : forall b, aCh a b = None).
  { intros b. destruct (aCh a b) as [[k v|m0]|] eqn:E; auto; exfalso.
    - apply (AB k v). exists r, a. split; auto. right; eauto.
    - destruct (ai_node r A I _ _ _ _ Ha E) as (am & Hm & _). pose proof (LV _ _ Hm). subst m0. exact (root_no_parent r A I _ _ _ Ha E). }
  assert (E0 : nchild (c_node c) = 0).
  { rewrite (nrep_count _ _ _ R). transitivity (cnt (fun _ => false) 256); [apply cnt_ext; intros; now rewrite ECh|reflexivity]. }
  split; [|split].
  - pose proof (nr_min _ _ _ R) as X. rewrite E0 in X. pose proof (nr_layout _ _ _ R) as (_ & _ & L).
    destruct (n_type (c_node c)); cbn [min_size] in X; auto; try lia.
  - rewrite (entry_nleaf _ _ _ R), E0, EL. reflexivity.
  - intros a' T. destruct (in_tree_live _ _ _ _ H T) as (x & Hx). eauto.
Qed.

(** ** C10 *)
Theorem depth_bound m k : rch m -> valid k ->
  (exists o, Get (length k + 1) m k = Ok o) /\
  (forall v, valid v -> forall root pv, m_root m = PNode root -> get_ver m 0 = Ok pv ->
     exists ff m', insert (length k + 1) ff m k v 0 0 pv LRoot root = Ok (m', true)) /\
  (forall root pv, m_root m = PNode root -> get_ver m 0 = Ok pv ->
     exists m' ok, remove (length k + 1) m k 0 0 pv LRoot root = Ok (m', ok)).
Proof.
  intros HR (VK & FK). destruct (rch_rep m HR) as (r & A & h & H & M).
  destruct (h_dummy _ _ _ H) as (d & Hd & Ud & _).
  destruct (root_start r A (h_inv _ _ _ H)) as (a & Ha & Hz & EW & EPL).
  destruct (h_node _ _ _ H _ _ Ha) as (c & Hc & _).
  assert (PR : forall root pv, m_root m = PNode root -> get_ver m 0 = Ok pv -> root = r /\ pv = c_ver d).
  { intros root pv E1 E2. rewrite (h_root _ _ _ H) in E1. rewrite (get_ver_ok _ _ _ Hd) in E2. apply Ok_inj in E2. inversion E1; auto. }
  split; [|split].
  - eexists. eapply Get_map; eauto. split; auto.
  - intros v (VV & FV) root pv E1 E2. destruct (PR _ _ E1 E2) as (-> & ->). destruct (wbound_exists _ _ _ H) as (D & HD).
    exists (D + 2). destruct (insert_spec m r A D k v (D + 2) H HD (le_n _) VK FK FV (length k + 1) 0 0 d LRoot r a c) as (m' & E & _); auto.
    + left. auto.
    + exists k. reflexivity.
    + lia.
    + eauto.
  - intros root pv E1 E2. destruct (PR _ _ E1 E2) as (-> & ->).
    destruct (remove_spec m r A k H VK (length k + 1) 0 0 d LRoot r a c) as [(m' & v & E & _)|[(E & _)|(E & _)]]; eauto.
    + apply cp_root.
    + left; auto.
    + lia.
    + lia.
Qed.

End Reach.

(** ** C07 *)
Lemma setf_ext f g b x : (forall i, f i = g i) -> forall i, setf f b x i = setf g b x i.
Proof. intros H i. unfold setf. destruct (Nat.eqb i b); auto. Qed.

Record node_ok (n : node) (f : nat -> option ptr) : Prop := {
  no_layout : layout_ok n; no_V : forall b, V n b = f b; no_min : min_size (n_type n) <= nchild n }.

Lemma node_ok_pos n f b : node_ok n f -> b < 256 -> f b <> None -> 0 < nchild n.
Proof. intros [L HV _] Hb Hf. unfold nchild. apply (cnt_pos _ 256 b Hb). rewrite HV. destruct (f b); [reflexivity|congruence]. Qed.

Lemma node_add n f b p : node_ok n f -> b < 256 -> f b = None -> exists n', add_child n b p = Ok n' /\ node_ok n' (setf f b (Some p)).
Proof.
  intros [L HV HM] Hb Hf. rewrite <- HV in Hf.
  assert (HL : nchild n < 256).
  { destruct (Nat.lt_ge_cases (nchild n) 256) as [|G]; auto. exfalso.
    assert (E : nchild n = 256) by (pose proof L as (_ & X & _); destruct (n_type n); cbn [cap] in X; lia).
    pose proof (cnt_all _ _ E b Hb) as X. cbn in X. rewrite Hf in X. discriminate. }
  unfold add_child. rewrite (isFull_spec n L HL). cbn [bind]. 
  destruct (Nat.eqb_spec (nchild n) (cap (n_type n))) as [E|E]; cbn [andb].
  - destruct (ntype_eqb (n_type n) Node256) eqn:E256; cbn [negb].
    + exfalso. destruct (n_type n); try discriminate. cbn [cap] in E. lia.
    + destruct (growAndInsert_spec n b p L) as (n' & E1 & L' & T' & _ & V'); auto. { intros X. rewrite X in E256. discriminate. }
      exists n'. split; auto. constructor; auto.
      * intros b'. rewrite V'. unfold setf. destruct (Nat.eqb b' b); auto.
      * rewrite (nchild_add n n' b p Hb Hf V'), T', E. pose proof L as (_ & _ & X). destruct (n_type n); cbn [grown min_size cap]; lia.
  - destruct (insertChild_spec n b p L) as (n' & E1 & L' & T' & _ & V'); auto. { pose proof L as (_ & X & _). lia. }
    exists n'. split; auto. constructor; auto.
    + intros b'. rewrite V'. unfold setf. destruct (Nat.eqb b' b); auto.
    + rewrite (nchild_add n n' b p Hb Hf V'), T'. lia.
Qed.

Lemma node_replace n f b p : node_ok n f -> b < 256 -> f b <> None -> exists n', replace_child n b p = Ok n' /\ node_ok n' (setf f b (Some p)).
Proof.
  intros [L HV HM] Hb Hf. rewrite <- HV in Hf. unfold replace_child.
  destruct (find_spec n b L Hb) as (s & q & E & HS). rewrite E. cbn [bind]. specialize (HS Hf).
  destruct (set_slot_spec n b s q p L Hf HS) as (Hs & L' & V' & _). unfold upd.
  replace (Nat.ltb s (length (n_children n))) with true by (symmetry; now apply Nat.ltb_lt). cbn [bind].
  eexists. split; [reflexivity|]. constructor; auto.
  - intros b'. rewrite V'. unfold setf. destruct (Nat.eqb b' b); auto.
  - assert (X : nchild (set_children n (set_nth (n_children n) s (Some p))) = nchild n).
    { apply nchild_ext. intros b'. rewrite V'. destruct (Nat.eqb_spec b' b) as [->|]; auto. destruct (V n b); [reflexivity|congruence]. }
    rewrite X. exact HM.
Qed.

Lemma node_drop n f b : node_ok n f -> b < 256 -> f b <> None -> exists n', drop_child n b = Ok n' /\ node_ok n' (setf f b None).
Proof.
  intros NO Hb Hf. pose proof (node_ok_pos _ _ _ NO Hb Hf) as HP. destruct NO as [L HV HM]. rewrite <- HV in Hf. unfold drop_child.
  destruct (find_spec n b L Hb) as (s & q & E & HS). rewrite E. cbn [bind]. specialize (HS Hf).
  assert (GEN : forall n', layout_ok n' -> (forall b', V n' b' = if Nat.eqb b' b then None else V n b') -> min_size (n_type n') <= nchild n - 1 ->
     node_ok n' (setf f b None)).
  { intros n' L' V' M'. constructor; auto.
    - intros b'. rewrite V'. unfold setf. destruct (Nat.eqb b' b); auto.
    - pose proof (nchild_del n n' b Hb Hf V'). lia. }
  destruct (n_type n) eqn:ET.
  - unfold shouldShrink. rewrite ET. cbn [ntype_eqb bind].
    destruct (removeChild_spec n b s q L Hf HS) as (n' & E1 & L' & T' & _ & V'). exists n'. split; auto.
    apply GEN; auto. rewrite T', ET. cbn. lia.
  - rewrite shouldShrink_big by (auto; congruence). cbn [bind]. rewrite ET. cbn [min_size]. cbn [min_size] in HM.
    destruct (Nat.leb_spec (nchild n) 4).
    + destruct (shrink16_spec n b L ET) as (n' & E1 & L' & T' & _ & V'); auto; [lia|]. exists n'. split; auto. apply GEN; auto. rewrite T'. cbn. lia.
    + destruct (removeChild_spec n b s q L Hf HS) as (n' & E1 & L' & T' & _ & V'). exists n'. split; auto. apply GEN; auto. rewrite T', ET. cbn. lia.
  - rewrite shouldShrink_big by (auto; congruence). cbn [bind]. rewrite ET. cbn [min_size]. cbn [min_size] in HM.
    destruct (Nat.leb_spec (nchild n) 13).
    + destruct (shrink48_spec n b L ET) as (n' & E1 & L' & T' & _ & V'); auto; [lia|]. exists n'. split; auto. apply GEN; auto. rewrite T'. cbn. lia.
    + destruct (removeChild_spec n b s q L Hf HS) as (n' & E1 & L' & T' & _ & V'). exists n'. split; auto. apply GEN; auto. rewrite T', ET. cbn. lia.
  - rewrite shouldShrink_big by (auto; congruence). cbn [bind]. rewrite ET. cbn [min_size]. cbn [min_size] in HM.
    destruct (Nat.leb_spec (nchild n) 38).
    + destruct (shrink256_spec n b L ET) as (n' & E1 & L' & T' & _ & V'); auto; [lia|]. exists n'. split; auto. apply GEN; auto. rewrite T'. cbn. lia.
    + destruct (removeChild_spec n b s q L Hf HS) as (n' & E1 & L' & T' & _ & V'). exists n'. split; auto. apply GEN; auto. rewrite T', ET. cbn. lia.
  - pose proof L as (_ & _ & X). rewrite ET in X. contradiction.
Qed.

Lemma node_ok_det {A} (x : res A) a b : x = Ok a -> x = Ok b -> a = b.
Proof. intros -> H. now apply Ok_inj in H. Qed.

Lemma built_ok n f : built n f -> node_ok n f.
Proof.
  induction 1 as [|n f b p n' B IH Hb Hf E|n f b p n' B IH Hb Hf E|n f b n' B IH Hb Hf E].
  - constructor; [apply newNode4_ok|apply V_newNode4|cbn; lia].
  - destruct (node_add n f b p IH Hb Hf) as (n2 & E2 & NO). now rewrite (node_ok_det _ _ _ E E2).
  - destruct (node_replace n f b p IH Hb Hf) as (n2 & E2 & NO). now rewrite (node_ok_det _ _ _ E E2).
  - destruct (node_drop n f b IH Hb Hf) as (n2 & E2 & NO). now rewrite (node_ok_det _ _ _ E E2).
Qed.

Theorem node_map n f : built n f ->
  (forall b, b < 256 -> exists slot pos, findChild n b = Ok (f b, slot, pos)) /\
  (forall b p, b < 256 -> f b = None -> exists n', add_child n b p = Ok n') /\
  (forall b p, b < 256 -> f b <> None -> exists n', replace_child n b p = Ok n') /\
  (forall b, b < 256 -> f b <> None -> exists n', drop_child n b = Ok n') /\
  n_num n = length (filter (fun b => present (f b)) (seq 0 256)) mod 256.
Proof.
  intros B. pose proof (built_ok _ _ B) as NO. split; [|split; [|split; [|split]]].
  - intros b Hb. destruct (find_spec n b (no_layout _ _ NO) Hb) as (s & q & E & _). rewrite (no_V _ _ NO) in E. eauto.
  - intros b p Hb Hf. destruct (node_add n f b p NO Hb Hf) as (n' & E & _). eauto.
  - intros b p Hb Hf. destruct (node_replace n f b p NO Hb Hf) as (n' & E & _). eauto.
  - intros b Hb Hf. destruct (node_drop n f b NO Hb Hf) as (n' & E & _). eauto.
  - rewrite <- cnt_filter. pose proof (no_layout _ _ NO) as (X & _). rewrite X. f_equal. apply cnt_ext. intros b Hb.
    rewrite (no_V _ _ NO). destruct (f b); reflexivity.
Qed.

(** ** C08 *)
Theorem leaf_top : forall k v, fits32 (length k) -> fits32 (length v) ->
  leaf_key (newLeaf k v) = Ok k /\ leaf_value (newLeaf k v) = Ok v /\
  (forall k', exists b, leaf_match (newLeaf k v) k' = Ok b /\ (b = true <-> k' = k)).
Proof.
  intros k v H1 H2. split; [apply leaf_key_newLeaf; auto|]. split; [apply leaf_value_newLeaf; auto|].
  intros k'. exists (beqb k k'). split; [apply leaf_match_newLeaf; auto|]. rewrite beqb_eq. split; congruence.
Qed.
