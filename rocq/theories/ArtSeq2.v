(** * ArtSeq2: Put returns and binds exactly its key. *)
From Verif Require Import Base BitsModel BitsFacts VecModel VecProofs VecProofs2 ArtNode
  ArtNodeProofs ArtNodeProofs2 ArtNodeProofs3 ArtModel ArtTree ArtTree2 ArtRep ArtRep2 ArtTree3 ArtSeq ArtMono.
Ltac Zify.zify_post_hook ::= Z.div_mod_to_equations.

Lemma nth_error_firstn_lt' {A} (l : list A) d i : i < d -> nth_error (firstn d l) i = nth_error l i.
Proof. revert l i. induction d; intros [|x l] [|i] H; cbn; auto; try lia. apply IHd. lia. Qed.
Lemma nth_error_ext' {A} (l1 l2 : list A) : (forall i, nth_error l1 i = nth_error l2 i) -> l1 = l2.
Proof.
  revert l2. induction l1 as [|x l1 IH]; intros [|y l2] H; auto; try (specialize (H 0); discriminate).
  f_equal; [specialize (H 0); now inversion H|]. apply IH. intros i. apply (H (S i)).
Qed.

(** ** A bound on the paths in a heap *)
Definition wbound (A : aheap) (D : nat) : Prop := forall n a, A n = Some a -> length (aW a) <= D.

Lemma wbound_exists m r A : hrep m r A -> exists D, wbound A D.
Proof.
  intros H. assert (G : forall k, exists D, forall n a, n < k -> A n = Some a -> length (aW a) <= D).
  { induction k as [|k (D & HD)]; [exists 0; lia|].
    destruct (A k) as [a|] eqn:E.
    - exists (Nat.max D (length (aW a))). intros n a' Hn Ha. destruct (Nat.eq_dec n k) as [->|].
      + assert (a' = a) by congruence. subst. lia.
      + specialize (HD n a' ltac:(lia) Ha). lia.
    - exists D. intros n a' Hn Ha. destruct (Nat.eq_dec n k) as [->|]; [congruence|]. apply (HD n a'); auto. lia. }
  destruct (G (mlen m)) as (D & HD). exists D. intros n a Ha. apply (HD n a); auto.
  destruct (h_node _ _ _ H _ _ Ha) as (c & Hc & _). eapply cell_lt; eauto.
Qed.

Lemma fullKey_spec m r A D : hrep m r A -> wbound A D ->
  forall fuel curr a c, A curr = Some a -> curr <> r -> cell_at m curr = Some c ->
  D + 1 - length (aW a) <= fuel ->
  exists k, fullKey fuel m curr (c_ver c) = Ok (k, true) /\ is_prefix (aW a) k.
Proof.
  intros H HD. pose proof (h_inv _ _ _ H) as I.
  induction fuel as [|fuel IH]; intros curr a c Ha Hr Hc Hf.
  { specialize (HD _ _ Ha). lia. }
  destruct (h_node _ _ _ H _ _ Ha) as (c' & Hc' & Hu & R). assert (c' = c) by congruence. subst c'.
  cbn [fullKey]. rewrite (get_node_ok m curr c Hc). cbn [bind]. rewrite (nr_pleaf _ _ _ R).
  destruct (aLeaf a) as [v|] eqn:EL; cbn [option_map].
  - rewrite (rUnlock_ok m curr c Hc). cbn [bind negb].
    destruct (nr_keys _ _ _ R (aW a) v) as (F1 & F2 & _); [left; auto|].
    rewrite leaf_key_newLeaf by auto. cbn [bind]. eexists. split; [reflexivity|]. apply is_prefix_refl.
  - assert (0 < nchild (c_node c)).
    { pose proof (nr_occ _ _ _ R) as O. rewrite EL in O. cbn [nleaf] in O.
      assert (Nat.eqb curr r = false) by now apply Nat.eqb_neq. specialize (O H0). lia. }
    destruct (firstChild_spec (c_node c) (nr_layout _ _ _ R) H0) as (b & p & Ef & EV).
    rewrite Ef. cbn [bind]. rewrite (rUnlock_ok m curr c Hc). cbn [bind negb].
    rewrite (nr_V _ _ _ R) in EV. destruct (aCh a b) as [[k' v'|m']|] eqn:Ech; cbn [option_map conv] in EV; inversion EV; subst p.
    + destruct (nr_keys _ _ _ R k' v') as (F1 & F2 & _); [right; eauto|].
      rewrite leaf_key_newLeaf by auto. cbn [bind]. eexists. split; [reflexivity|].
      eapply is_prefix_trans; [apply is_prefix_app_l|]. eapply (ai_leaf r A I); eauto.
    + destruct (ai_node r A I _ _ _ _ Ha Ech) as (am & Hm & PM & LM).
      destruct (h_node _ _ _ H _ _ Hm) as (cm & Hcm & Hum & Rm).
      rewrite (rLock_ok m m' cm Hcm Hum). cbn [bind negb].
      destruct (IH m' am cm) as (k & E & P); auto.
      { intros ->. exact (root_no_parent r A I _ _ _ Ha Ech). } { lia. }
      exists k. split; auto. eapply is_prefix_trans; [|exact P].
      eapply is_prefix_trans; [apply is_prefix_app_l|exact PM].
Qed.

(** The pure part of prefixMismatch, for any node representing [a]. *)
Lemma mismatch_short nd root a key depth : nrep root nd a -> depth = length (aW a) - aPL a ->
  is_prefix (firstn depth (aW a)) key -> aPL a <= 8 ->
  exists p, (krest <- slice_from key depth ;;
             miss_loop (n_prefix nd) krest (Nat.min (length key - depth) (n_plen nd)) 0) = Ok p /\
    p <= aPL a /\ is_prefix (firstn (depth + p) (aW a)) key /\
    (p < aPL a -> nth_error key (depth + p) <> nth_error (aW a) (depth + p)).
Proof.
  intros R Hd HP H8. pose proof (nr_pl _ _ _ R) as HL.
  assert (Hdk : depth <= length key). { apply is_prefix_length in HP. rewrite firstn_length in HP. lia. }
  unfold slice_from. replace (Nat.leb depth (length key)) with true by (symmetry; now apply Nat.leb_le). cbn [bind].
  rewrite (nr_plen _ _ _ R), (nr_prefix _ _ _ R).
  destruct (miss_loop_spec (stored (aW a) (aPL a)) (skipn depth key) (Nat.min (length key - depth) (aPL a)) 0) as (q & E & Q1 & Q2 & Q3).
  { rewrite stored_length. lia. } { rewrite skipn_length. lia. }
  exists q. split; [exact E|]. split; [lia|].
  assert (T : forall i, i < q -> nth_error key (depth + i) = nth_error (aW a) (depth + i)).
  { intros i Hi. specialize (Q2 i ltac:(lia)). rewrite skipn_nth_error in Q2. rewrite <- Q2.
    rewrite (nth_error_nth' (aW a) 0) by lia.
    rewrite (nth_error_nth' (stored (aW a) (aPL a)) 0) by (rewrite stored_length; lia).
    rewrite nth_stored by lia. do 2 f_equal. lia. }
  split.
  - apply is_prefix_firstn in HP. rewrite firstn_length_le in HP by lia.
    apply is_prefix_firstn. rewrite firstn_length_le by lia. apply firstn_common.
    intros i Hi. destruct (Nat.lt_ge_cases i depth) as [H|H].
    + rewrite <- (nth_error_firstn_lt' (aW a) depth i), <- (nth_error_firstn_lt' key depth i) by lia. now rewrite HP.
    + replace i with (depth + (i - depth)) by lia. apply T. lia.
  - intros Hq. destruct (Nat.lt_ge_cases q (Nat.min (length key - depth) (aPL a))) as [H|H].
    + specialize (Q3 ltac:(lia)). rewrite skipn_nth_error in Q3. intros E2. apply Q3. rewrite E2.
      rewrite (nth_error_nth' (stored (aW a) (aPL a)) 0) by (rewrite stored_length; lia).
      rewrite nth_stored by lia. rewrite (nth_error_nth' (aW a) 0) by lia. do 2 f_equal. lia.
    + rewrite (proj2 (nth_error_None key (depth + q))) by lia. rewrite (nth_error_nth' (aW a) 0) by lia. discriminate.
Qed.

Lemma mismatch_long (W key fk : bytes) pl depth : pl <= length W -> depth = length W - pl ->
  is_prefix (firstn depth W) key -> is_prefix W fk ->
  exists q, miss_loop key fk (Nat.min (length key) (depth + pl) - depth) depth = Ok q /\
    q - depth <= pl /\ is_prefix (firstn (depth + (q - depth)) W) key /\
    (q - depth < pl -> nth_error key (depth + (q - depth)) <> nth_error W (depth + (q - depth))).
Proof.
  intros HL Hd HP HF.
  assert (Hdk : depth <= length key). { apply is_prefix_length in HP. rewrite firstn_length in HP. lia. }
  pose proof (is_prefix_length _ _ HF) as LF.
  destruct (miss_loop_spec key fk (Nat.min (length key) (depth + pl) - depth) depth) as (q & E & Q1 & Q2 & Q3); try lia.
  exists q. split; [exact E|]. split; [lia|]. replace (depth + (q - depth)) with q by lia.
  assert (T : forall i, depth <= i < q -> nth_error key i = nth_error W i).
  { intros i Hi. rewrite Q2 by auto. apply is_prefix_nth; auto. lia. }
  split.
  - apply is_prefix_firstn in HP. rewrite firstn_length_le in HP by lia.
    apply is_prefix_firstn. rewrite firstn_length_le by lia. apply firstn_common.
    intros i Hi. destruct (Nat.lt_ge_cases i depth) as [H|H].
    + rewrite <- (nth_error_firstn_lt' W depth i), <- (nth_error_firstn_lt' key depth i) by lia. now rewrite HP.
    + apply T. lia.
  - intros Hq. destruct (Nat.lt_ge_cases q (Nat.min (length key) (depth + pl))) as [H|H].
    + specialize (Q3 ltac:(lia)). rewrite <- (is_prefix_nth W fk q) by (auto; lia). exact Q3.
    + rewrite (proj2 (nth_error_None key q)) by lia. rewrite (nth_error_nth' W 0) by lia. discriminate.
Qed.

Lemma mismatch_spec m r A D ff curr a c key depth parent pc : hrep m r A -> wbound A D -> D + 2 <= ff ->
  A curr = Some a -> cell_at m curr = Some c -> cell_at m parent = Some pc ->
  depth = length (aW a) - aPL a -> is_prefix (firstn depth (aW a)) key ->
  exists p fk, prefixMismatch ff m curr key depth parent (c_ver c) (c_ver pc) = Ok (p, fk, true) /\
    p <= aPL a /\ is_prefix (firstn (depth + p) (aW a)) key /\
    (p < aPL a -> nth_error key (depth + p) <> nth_error (aW a) (depth + p)) /\
    (8 < aPL a -> is_prefix (aW a) fk).
Proof.
  intros H HD Hff Ha Hc Hpc Hd HP. pose proof (h_inv _ _ _ H) as I.
  destruct (h_node _ _ _ H _ _ Ha) as (c' & Hc' & Hu & R). assert (c' = c) by congruence. subst c'.
  unfold prefixMismatch. rewrite (get_node_ok m curr c Hc). cbn [bind]. pose proof (nr_plen _ _ _ R) as EP.
  destruct (Nat.leb_spec (n_plen (c_node c)) maxPrefixLen) as [Hle|Hgt].
  - rewrite EP in Hle. unfold maxPrefixLen in Hle.
    destruct (mismatch_short _ _ _ key depth R Hd HP Hle) as (p & E & P1 & P2 & P3).
    exists p, []. split.
    + destruct (slice_from key depth) as [kr| |] eqn:ES; cbn [bind] in E |- *; try discriminate.
      cbv zeta. rewrite E. reflexivity.
    + repeat split; auto. lia.
  - rewrite EP in Hgt. unfold maxPrefixLen in Hgt.
    assert (Hr : curr <> r). { intros ->. destruct (ai_root r A I) as (ar & Hr & _ & E2). assert (ar = a) by congruence. subst. lia. }
    destruct (fullKey_spec m r A D H HD ff curr a c Ha Hr Hc ltac:(lia)) as (fk & EF & PF).
    assert (ER : fullKey_retry ff ff m curr parent (c_ver c) (c_ver pc) None = Ok (Some fk)).
    { destruct ff as [|[|f]]; [lia|lia|]. cbn [fullKey_retry]. rewrite (rUnlock_ok m curr c Hc). cbn [bind].
      rewrite (rUnlock_ok m parent pc Hpc). cbn [bind negb]. rewrite EF. cbn [bind]. reflexivity. }
    rewrite ER. cbn [bind]. cbv zeta. rewrite EP.
    destruct (mismatch_long (aW a) key fk (aPL a) depth (nr_pl _ _ _ R) Hd HP PF) as (q & E & P1 & P2 & P3).
    rewrite E. cbn [bind]. exists (q - depth), fk. auto 10.
Qed.

(** ** Executing writes *)
Lemma store_slot_ok m a i p c : cell_at m a = Some c -> i < length (n_children (c_node c)) ->
  store m (LSlot a i) p = Ok (upd_cell m a (mkCell (c_ver c) (set_children (c_node c) (set_nth (n_children (c_node c)) i (Some p))))).
Proof.
  intros H Hi. unfold store. rewrite (get_node_ok m a c H). cbn [bind]. unfold upd.
  replace (Nat.ltb i (length (n_children (c_node c)))) with true by (symmetry; now apply Nat.ltb_lt).
  cbn [bind]. apply put_node_ok; auto.
Qed.

Definition loc_ok (m : mem) (r : nat) (A : aheap) (parent : nat) (l : loc) (curr : nat) : Prop :=
  (parent = 0 /\ l = LRoot /\ curr = r) \/
  (exists ap b slot pos cp, A parent = Some ap /\ aCh ap b = Some (AN curr) /\ l = LSlot parent slot /\
     cell_at m parent = Some cp /\ slot_of (c_node cp) b slot pos).

Lemma loc_ok_root m r A parent l : hrep m r A -> loc_ok m r A parent l r -> parent = 0 /\ l = LRoot.
Proof.
  intros H [(-> & -> & _)|(ap & b & s & q & cp & H1 & H2 & _)]; auto.
  exfalso. exact (root_no_parent r A (h_inv _ _ _ H) _ _ _ H1 H2).
Qed.
Lemma loc_ok_inner m r A parent l curr : hrep m r A -> loc_ok m r A parent l curr -> curr <> r ->
  exists ap b slot pos cp, A parent = Some ap /\ aCh ap b = Some (AN curr) /\ l = LSlot parent slot /\
     cell_at m parent = Some cp /\ slot_of (c_node cp) b slot pos /\ nrep (Nat.eqb parent r) (c_node cp) ap /\ unl (c_ver cp) /\ parent <> curr.
Proof.
  intros H [(_ & _ & E)|(ap & b & s & q & cp & H1 & H2 & H3 & H4 & H5)] Hr; [contradiction|].
  destruct (h_node _ _ _ H _ _ H1) as (c' & Hc' & Hu & R). assert (c' = cp) by congruence. subst c'.
  exists ap, b, s, q, cp. repeat (split; [assumption|]). exact (pm_neq r A (h_inv _ _ _ H) parent b curr ap H1 H2).
Qed.

Ltac mlens := repeat first [rewrite mlen_upd | rewrite mlen_alloc].
Ltac msz := mlens; lia.
Ltac cellc :=
  repeat first [ rewrite cell_upd by msz | rewrite cell_alloc ];
  mlens;
  repeat first [ rewrite Nat.eqb_refl | rewrite (proj2 (Nat.eqb_neq _ _)) by (first [lia|congruence]) ].
Ltac cfact := cellc; solve [reflexivity | eassumption].

(** The node cells of an updated memory. *)
Lemma hrep_intro m r A m' r' A' :
  hrep m r A -> m_root m' = PNode r' -> AInv r' A' -> A' 0 = None ->
  (exists c, cell_at m' 0 = Some c /\ unl (c_ver c) /\ n_type (c_node c) = Dummy) ->
  (forall n a, A' n = Some a ->
     exists c, cell_at m' n = Some c /\ unl (c_ver c) /\ nrep (Nat.eqb n r') (c_node c) a) ->
  hrep m' r' A'.
Proof. intros. now constructor. Qed.

(** Writing one live node in place, with a lock and unlock of its version. *)
Lemma hrep_write m r A n c a nd' a' : hrep m r A -> A n = Some a -> cell_at m n = Some c ->
  nrep (Nat.eqb n r) nd' a' -> AInv r (aset A n (Some a')) ->
  hrep (upd_cell m n (mkCell (w64 (w64 (c_ver c + 2) + 2)) nd')) r (aset A n (Some a')).
Proof.
  intros H Ha Hc R I'. assert (Hn : n <> 0) by (intros ->; rewrite (h_zero _ _ _ H) in Ha; discriminate).
  pose proof (cell_lt _ _ _ Hc) as HL.
  assert (Hu : unl (c_ver c)) by (destruct (h_node _ _ _ H _ _ Ha) as (c' & Hc' & Hu & _); congruence).
  constructor; auto.
  - exact (h_root _ _ _ H).
  - destruct (h_dummy _ _ _ H) as (d & Hd & P). exists d. split; auto. cellc. exact Hd.
  - rewrite aset_ne by auto. apply (h_zero _ _ _ H).
  - intros i x. unfold aset. rewrite cell_upd by auto. rewrite (Nat.eqb_sym n i). destruct (Nat.eqb_spec i n) as [->|Hne].
    + intros E; inversion E; subst x. eexists. split; [reflexivity|]. split; [now apply unl_relock|]. exact R.
    + intros E. apply (h_node _ _ _ H _ _ E).
Qed.

Lemma upd_upd m a c1 c2 : a < mlen m -> upd_cell (upd_cell m a c1) a c2 = upd_cell m a c2.
Proof.
  intros H. unfold upd_cell. cbn [m_cells m_root]. f_equal. apply nth_error_ext'. intros i.
  rewrite !nth_error_set_nth, set_nth_length. destruct (Nat.eqb a i); reflexivity.
Qed.

(** Final assembly when parent, curr and one fresh node change. *)
Lemma hrep_three m r A parent curr x m' r' A' (PX : option anode) ndx :
  hrep m r A -> parent <> curr -> parent < mlen m -> curr < mlen m -> x = mlen m ->
  m_root m' = PNode r' -> AInv r' A' -> 
  (forall n, n <> parent -> n <> curr -> n <> x -> A' n = A n) ->
  (forall n, n <> parent -> n <> curr -> n <> x -> cell_at m' n = cell_at m n) ->
  A' 0 = None ->
  (exists c, cell_at m' 0 = Some c /\ unl (c_ver c) /\ n_type (c_node c) = Dummy) ->
  (forall n, n <> parent -> n <> curr -> n <> x -> A n <> None -> Nat.eqb n r' = Nat.eqb n r) ->
  (forall a, A' parent = Some a -> exists c, cell_at m' parent = Some c /\ unl (c_ver c) /\ nrep (Nat.eqb parent r') (c_node c) a) ->
  (forall a, A' curr = Some a -> exists c, cell_at m' curr = Some c /\ unl (c_ver c) /\ nrep (Nat.eqb curr r') (c_node c) a) ->
  (A' x = PX /\ (PX <> None -> exists v, cell_at m' x = Some (mkCell v ndx) /\ unl v) /\ forall a, PX = Some a -> nrep (Nat.eqb x r') ndx a) ->
  hrep m' r' A'.
Proof.
  intros H Hpc Hp Hc Hx Hr I' HA HM Z D HR HP HC (HX1 & HX2 & HX3).
  constructor; auto. intros n a Hn.
  destruct (Nat.eq_dec n parent) as [->|N1]; [auto|]. destruct (Nat.eq_dec n curr) as [->|N2]; [auto|].
  destruct (Nat.eq_dec n x) as [->|N3].
  - rewrite HX1 in Hn. destruct HX2 as (v & E & U); [congruence|]. eexists. split; [exact E|]. split; auto.
  - rewrite HM, HR by (rewrite ?HA in Hn by auto; congruence). rewrite HA in Hn by auto. apply (h_node _ _ _ H _ _ Hn).
Qed.

Definition put_post (m' : mem) (A : aheap) (key v : bytes) : Prop :=
  exists r' A', hrep m' r' A' /\ putted A A' key v.

(** *** The exits of insert *)
Lemma exit_split m r A curr a c key value depth p fk ap b slot pos parent pc :
  hrep m r A -> A curr = Some a -> cell_at m curr = Some c -> cell_at m parent = Some pc ->
  curr <> r -> A parent = Some ap -> aCh ap b = Some (AN curr) -> slot_of (c_node pc) b slot pos ->
  depth = length (aW a) - aPL a -> p < aPL a ->
  is_prefix (firstn (depth + p) (aW a)) key ->
  nth_error key (depth + p) <> nth_error (aW a) (depth + p) ->
  (8 < aPL a -> is_prefix (aW a) fk) ->
  bytes_ok key -> fits32 (length key) -> fits32 (length value) ->
  exists m', (' (m1, ok) <- upgradeToLock m parent (c_ver pc) ;;
        if negb ok then Ok (m1, false) else
        ' (m2, ok) <- upgradeToLockWithNode m1 curr (c_ver c) parent ;;
        if negb ok then Ok (m2, false) else
        ' (n', nn) <- insertSplitPrefix curr (c_node c) key fk value depth p ;;
        m3 <- put_node m2 curr n' ;;
        let '(m4, na) := alloc m3 nn in
        m5 <- store m4 (LSlot parent slot) (PNode na) ;;
        m6 <- unlock m5 curr ;;
        m7 <- unlock m6 parent ;;
        Ok (m7, true)) = Ok (m', true) /\ put_post m' A key value.
Proof.
  intros H Ha Hc Hpc Hr Hap Hb Hs Hd Hp HP Hne Hfk HK F1 F2. pose proof (h_inv _ _ _ H) as I.
  destruct (h_node _ _ _ H _ _ Ha) as (c' & Hc' & Hu & R). assert (c' = c) by congruence. subst c'. clear Hc'.
  destruct (h_node _ _ _ H _ _ Hap) as (c' & Hc' & Hup & Rp). assert (c' = pc) by congruence. subst c'. clear Hc'.
  rewrite (proj2 (Nat.eqb_neq curr r) Hr) in R.
  assert (Hpcur : parent <> curr) by exact (pm_neq r A I parent b curr ap Hap Hb).
  pose proof (cell_lt _ _ _ Hc) as Lc. pose proof (cell_lt _ _ _ Hpc) as Lp.
  pose proof (hrep_fresh _ _ _ H) as Hx.
  assert (Hp0 : parent <> 0) by (intros ->; rewrite (h_zero _ _ _ H) in Hap; discriminate).
  assert (Hc0 : curr <> 0) by (intros ->; rewrite (h_zero _ _ _ H) in Ha; discriminate).
  destruct (rep_set_child _ _ _ Rp b slot pos (AN (mlen m)) ltac:(congruence) Hs Logic.I) as (Hsl & Rp').
  destruct (split_spec curr (c_node c) a key fk value depth p R Hd Hp HP Hne Hfk F1 F2 HK) as (n' & nn & ES & R1 & HN & R2).
  rewrite (upgrade_ok m parent pc Hpc). cbn [bind negb].
  erewrite upgrade_with_ok by cfact. cbn [bind negb]. rewrite ES. cbn [bind].
  erewrite put_node_ok by cfact. cbn [bind c_ver c_node].
  destruct (alloc _ nn) as (m4, na) eqn:EA.
  match type of EA with alloc ?x _ = _ => set (m3 := x) in * end.
  assert (E4 : m4 = fst (alloc m3 nn)) by now rewrite EA. assert (Ena : na = mlen m).
  { transitivity (mlen m3); [|unfold m3; now rewrite !mlen_upd]. now inversion EA. }
  rewrite E4. clear EA E4 m4. subst na.
  assert (L3 : mlen m3 = mlen m) by (unfold m3; now rewrite !mlen_upd).
  erewrite store_slot_ok; [|unfold m3; cfact|cbn [c_node]; exact Hsl]. cbn [bind c_ver c_node].
  erewrite unlock_ok by (unfold m3; cfact). cbn [bind c_ver c_node].
  erewrite unlock_ok by (unfold m3; cfact). cbn [bind c_ver c_node].
  eexists. split; [reflexivity|].
  destruct (put_split r A I parent b curr (mlen m) ap a p key value Hap Hb Ha Hx Hp) as (I' & P').
  { unfold split_node. cbn [aW]. unfold split_d. rewrite <- Hd. exact HP. } { exact HN. }
  exists r, (split_put A parent b curr (mlen m) ap a p key value). split; [|exact P'].
  assert (Hxr : mlen m <> r). { destruct (ai_root r A I) as (ar & Har & _). congruence. }
  unfold m3.
  refine (hrep_three m r A parent curr (mlen m) _ r _ (Some (put_entry (split_node curr a p) key value)) nn H Hpcur Lp Lc eq_refl _ I' _ _ _ _ _ _ _ _).
  - exact (h_root _ _ _ H).
  - intros n N1 N2 N3. unfold split_put. now rewrite !aset_ne by auto.
  - intros n N1 N2 N3. cellc. reflexivity.
  - unfold split_put. rewrite !aset_ne by (auto; lia). apply (h_zero _ _ _ H).
  - destruct (h_dummy _ _ _ H) as (d & Hdm & Pd). exists d. split; auto. cellc. exact Hdm.
  - auto.
  - intros x Hx'. unfold split_put in Hx'. rewrite !aset_ne in Hx' by (auto; lia). rewrite aset_eq in Hx'. inversion Hx'; subst x.
    eexists. split; [cfact|]. cbn [c_ver c_node]. split; [now apply unl_relock|]. exact Rp'.
  - intros x Hx'. unfold split_put in Hx'. rewrite aset_ne in Hx' by lia. rewrite aset_eq in Hx'. inversion Hx'; subst x.
    eexists. split; [cfact|]. cbn [c_ver c_node]. split; [now apply unl_relock|]. rewrite (proj2 (Nat.eqb_neq curr r) Hr). exact R1.
  - split; [apply aset_eq|]. split.
    + intros _. eexists. split; [cfact|reflexivity].
    + intros x Ex. inversion Ex; subst x. rewrite (proj2 (Nat.eqb_neq _ _) Hxr). exact R2.
Qed.

(** Both nodes locked. *)
Definition lock1 (m : mem) (a : nat) (c : cell) : mem :=
  upd_cell m a (mkCell (w64 (c_ver c + 2)) (c_node c)).
Definition lock2 (m : mem) (parent : nat) (pc : cell) (curr : nat) (c : cell) : mem :=
  lock1 (lock1 m parent pc) curr c.

(** Replacing [curr] by a fresh node: the common tail of grow and shrink. *)
Definition move_tail (m2 : mem) (nn : node) (l : loc) (curr parent : nat) : res mem :=
  let '(m3, na) := alloc m2 nn in
  m4 <- store m3 l (PNode na) ;;
  m5 <- unlockObsolete m4 curr ;;
  unlock m5 parent.

Lemma move_inner m r A parent pc curr c a nn a' ap b slot pos :
  hrep m r A -> A curr = Some a -> cell_at m curr = Some c -> cell_at m parent = Some pc ->
  curr <> r -> A parent = Some ap -> aCh ap b = Some (AN curr) -> slot_of (c_node pc) b slot pos ->
  nrep false nn a' -> AInv r (moved A parent b curr (mlen m) ap a') ->
  exists m', move_tail (lock2 m parent pc curr c) nn (LSlot parent slot) curr parent = Ok m' /\
    hrep m' r (moved A parent b curr (mlen m) ap a').
Proof.
  intros H Ha Hc Hpc Hr Hap Hb Hs R I'. pose proof (h_inv _ _ _ H) as I.
  destruct (h_node _ _ _ H _ _ Hap) as (c' & Hc' & Hup & Rp). assert (c' = pc) by congruence. subst c'. clear Hc'.
  assert (Hpcur : parent <> curr) by exact (pm_neq r A I parent b curr ap Hap Hb).
  pose proof (cell_lt _ _ _ Hc) as Lc. pose proof (cell_lt _ _ _ Hpc) as Lp.
  pose proof (hrep_fresh _ _ _ H) as Hx.
  assert (Hp0 : parent <> 0) by (intros ->; rewrite (h_zero _ _ _ H) in Hap; discriminate).
  assert (Hc0 : curr <> 0) by (intros ->; rewrite (h_zero _ _ _ H) in Ha; discriminate).
  destruct (rep_set_child _ _ _ Rp b slot pos (AN (mlen m)) ltac:(congruence) Hs Logic.I) as (Hsl & Rp').
  unfold move_tail, lock2, lock1.
  destruct (alloc _ nn) as (m4, na) eqn:EA.
  match type of EA with alloc ?x _ = _ => set (m3 := x) in * end.
  assert (E4 : m4 = fst (alloc m3 nn)) by now rewrite EA. assert (Ena : na = mlen m).
  { transitivity (mlen m3); [|unfold m3; now rewrite !mlen_upd]. now inversion EA. }
  rewrite E4. clear EA E4 m4. subst na.
  erewrite store_slot_ok; [|unfold m3; cfact|cbn [c_node]; exact Hsl]. cbn [bind c_ver c_node].
  erewrite unlockObsolete_ok by (unfold m3; cfact). cbn [bind c_ver c_node].
  erewrite unlock_ok by (unfold m3; cfact). cbn [bind c_ver c_node].
  eexists. split; [reflexivity|].
  assert (Hxr : mlen m <> r). { destruct (ai_root r A I) as (ar & Har & _). congruence. }
  unfold m3.
  refine (hrep_three m r A parent curr (mlen m) _ r _ (Some a') nn H Hpcur Lp Lc eq_refl _ I' _ _ _ _ _ _ _ _).
  - exact (h_root _ _ _ H).
  - intros n N1 N2 N3. unfold moved. now rewrite !aset_ne by auto.
  - intros n N1 N2 N3. cellc. reflexivity.
  - unfold moved. rewrite !aset_ne by (auto; lia). apply (h_zero _ _ _ H).
  - destruct (h_dummy _ _ _ H) as (d & Hdm & Pd). exists d. split; auto. cellc. exact Hdm.
  - auto.
  - intros x Hx'. unfold moved in Hx'. rewrite aset_eq in Hx'. inversion Hx'; subst x.
    eexists. split; [cfact|]. cbn [c_ver c_node]. split; [now apply unl_relock|]. exact Rp'.
  - intros x Hx'. unfold moved in Hx'. rewrite !aset_ne in Hx' by (auto; lia). rewrite aset_eq in Hx'. discriminate.
  - split; [|split].
    + unfold moved. rewrite aset_ne by lia. apply aset_eq.
    + intros _. eexists. split; [cfact|reflexivity].
    + intros x Ex. inversion Ex; subst x. rewrite (proj2 (Nat.eqb_neq _ _) Hxr). exact R.
Qed.

Lemma cell_root m p i : cell_at (mkMem (m_cells m) p) i = cell_at m i.
Proof. reflexivity. Qed.
Lemma mlen_root m p : mlen (mkMem (m_cells m) p) = mlen m.
Proof. reflexivity. Qed.

Lemma move_root m r A pc c a nn a' :
  hrep m r A -> A r = Some a -> cell_at m r = Some c -> cell_at m 0 = Some pc ->
  nrep true nn a' -> AInv (mlen m) (moved_root A r (mlen m) a') ->
  exists m', move_tail (lock2 m 0 pc r c) nn LRoot r 0 = Ok m' /\
    hrep m' (mlen m) (moved_root A r (mlen m) a').
Proof.
  intros H Ha Hc Hpc R I'. pose proof (h_inv _ _ _ H) as I.
  pose proof (cell_lt _ _ _ Hc) as Lc. pose proof (cell_lt _ _ _ Hpc) as Lp.
  pose proof (hrep_fresh _ _ _ H) as Hx.
  assert (Hc0 : r <> 0) by (intros ->; rewrite (h_zero _ _ _ H) in Ha; discriminate).
  unfold move_tail, lock2, lock1, store. unfold alloc. cbn [bind].
  set (m3 := upd_cell (upd_cell m 0 _) r _).
  set (m4 := mkMem (m_cells m3 ++ [mkCell 0 nn]) (m_root m3)).
  assert (E4 : m4 = fst (alloc m3 nn)) by reflexivity.
  assert (L3 : mlen m3 = mlen m) by (unfold m3; now rewrite !mlen_upd).
  set (m5 := mkMem (m_cells m4) _).
  assert (L5 : mlen m5 = S (mlen m)) by (unfold m5; rewrite mlen_root, E4; mlens; lia).
  assert (C5 : forall i, cell_at m5 i = if Nat.eqb (mlen m) i then Some (mkCell 0 nn) else
    if Nat.eqb r i then Some (mkCell (w64 (c_ver c + 2)) (c_node c)) else
    if Nat.eqb 0 i then Some (mkCell (w64 (c_ver pc + 2)) (c_node pc)) else cell_at m i).
  { intros i. unfold m5. rewrite cell_root, E4, cell_alloc, L3. destruct (Nat.eqb (mlen m) i); auto.
    unfold m3. rewrite cell_upd by msz. destruct (Nat.eqb r i); auto. now rewrite cell_upd by msz. }
  assert (C5r : cell_at m5 r = Some (mkCell (w64 (c_ver c + 2)) (c_node c))) by (rewrite C5; cellc; reflexivity).
  assert (C50 : cell_at m5 0 = Some (mkCell (w64 (c_ver pc + 2)) (c_node pc))) by (rewrite C5; cellc; reflexivity).
  rewrite (unlockObsolete_ok m5 r _ C5r). cbn [bind c_ver c_node].
  erewrite unlock_ok by (rewrite cell_upd by lia; cellc; exact C50). cbn [bind c_ver c_node].
  eexists. split; [reflexivity|].
  assert (Hxr : mlen m <> r). { destruct (ai_root r A I) as (ar & Har & _). congruence. }
  destruct (h_dummy _ _ _ H) as (d & Hdm & Ud & Td). assert (d = pc) by congruence. subst d.
  refine (hrep_three m r A 0 r (mlen m) _ (mlen m) _ (Some a') nn H ltac:(auto) Lp Lc eq_refl _ I' _ _ _ _ _ _ _ _).
  - cbn. do 2 f_equal. unfold mlen. now rewrite !set_nth_length.
  - intros n N1 N2 N3. unfold moved_root. now rewrite !aset_ne by auto.
  - intros n N1 N2 N3. cellc. rewrite C5. cellc. reflexivity.
  - unfold moved_root. rewrite !aset_ne by (auto; lia). apply (h_zero _ _ _ H).
  - eexists. split; [cellc; reflexivity|]. cbn [c_ver c_node]. split; auto. now apply unl_relock.
  - intros n N1 N2 N3 N4. now rewrite (proj2 (Nat.eqb_neq _ _) N3), (proj2 (Nat.eqb_neq _ _) N2).
  - intros x Hx'. unfold moved_root in Hx'. rewrite !aset_ne in Hx' by (auto; lia). rewrite (h_zero _ _ _ H) in Hx'. discriminate.
  - intros x Hx'. unfold moved_root in Hx'. rewrite !aset_ne in Hx' by (auto; lia). rewrite aset_eq in Hx'. discriminate.
  - split; [|split].
    + unfold moved_root. apply aset_eq.
    + intros _. eexists. split; [cellc; rewrite C5; cellc; reflexivity|reflexivity].
    + intros x Ex. inversion Ex; subst x. rewrite Nat.eqb_refl. exact R.
Qed.

(** In-place change of [curr], with the parent only checked. *)
Lemma inplace m r A curr a c nd' a' : hrep m r A -> A curr = Some a -> cell_at m curr = Some c ->
  nrep (Nat.eqb curr r) nd' a' -> AInv r (aset A curr (Some a')) ->
  exists m', (m3 <- put_node (lock1 m curr c) curr nd' ;; unlock m3 curr) = Ok m' /\ hrep m' r (aset A curr (Some a')).
Proof.
  intros H Ha Hc R I'. pose proof (cell_lt _ _ _ Hc) as Lc. unfold lock1.
  erewrite put_node_ok by cfact. cbn [bind c_ver c_node]. erewrite unlock_ok by cfact. cbn [bind c_ver c_node].
  rewrite !upd_upd by msz. eexists. split; [reflexivity|]. now apply hrep_write with (a := a).
Qed.

Lemma leafpath_apath r A (I : AInv r A) key curr a : A curr = Some a -> is_prefix (aW a) key -> apath r A key curr.
Proof. intros; eapply live_apath; eauto. Qed.

Lemma insert_spec m r A D key value ff : hrep m r A -> wbound A D -> D + 2 <= ff ->
  bytes_ok key -> fits32 (length key) -> fits32 (length value) ->
  forall fuel depth parent pc nodeLoc curr a c,
  A curr = Some a -> cell_at m curr = Some c -> cell_at m parent = Some pc ->
  loc_ok m r A parent nodeLoc curr ->
  depth = length (aW a) - aPL a -> is_prefix (firstn depth (aW a)) key ->
  length key + 1 - depth <= fuel ->
  exists m', insert fuel ff m key value depth parent (c_ver pc) nodeLoc curr = Ok (m', true) /\
    put_post m' A key value.
Proof.
  intros H HD Hff HK F1 F2. pose proof (h_inv _ _ _ H) as I.
  induction fuel as [|fuel IH]; intros depth parent pc nodeLoc curr a c Ha Hc Hpc Hloc Hd HP Hf.
  { apply is_prefix_length in HP. rewrite firstn_length in HP. destruct (h_node _ _ _ H _ _ Ha) as (c' & _ & _ & R).
    pose proof (nr_pl _ _ _ R). lia. }
  assert (Hdk : depth <= length key).
  { apply is_prefix_length in HP. rewrite firstn_length in HP. destruct (h_node _ _ _ H _ _ Ha) as (c' & _ & _ & R).
    pose proof (nr_pl _ _ _ R). lia. }
  destruct (h_node _ _ _ H _ _ Ha) as (c' & Hc' & Hu & R). assert (c' = c) by congruence. subst c'. clear Hc'.
  cbn [insert]. rewrite (rLock_ok m curr c Hc Hu). cbn [bind negb].
  destruct (mismatch_spec m r A D ff curr a c key depth parent pc H HD Hff Ha Hc Hpc Hd HP) as (p & fk & EM & P1 & P2 & P3 & P4).
  rewrite EM. cbn [bind negb]. rewrite (get_node_ok m curr c Hc). cbn [bind].
  pose proof (nr_plen _ _ _ R) as EP. rewrite EP.
  destruct (Nat.eqb_spec p (aPL a)) as [E|E]; cbn [negb].
  2: { assert (Hp : p < aPL a) by lia.
    assert (Hr : curr <> r). { intros ->. destruct (ai_root r A I) as (ar & Hr & _ & E2). assert (ar = a) by congruence. subst. lia. }
    destruct (loc_ok_inner m r A parent nodeLoc curr H Hloc Hr) as (ap & b & slot & pos & cp & Hap & Hb & -> & Hcp & Hs & _).
    assert (cp = pc) by congruence. subst cp.
    destruct (exit_split m r A curr a c key value depth p fk ap b slot pos parent pc) as (m' & EX & PO); auto.
    exists m'. split; auto. }
  clear P3 P4 EM. subst p. pose proof (nr_pl _ _ _ R) as HPL.
  replace (depth + aPL a) with (length (aW a)) in * by lia. rewrite firstn_all in P2.
  pose proof (is_prefix_length _ _ P2) as HLK.
  destruct (Nat.eqb_spec (length (aW a)) (length key)) as [El|El].
  - assert (EN : nth_error key (length (aW a)) = None) by (apply nth_error_None; lia).
    rewrite (upgrade_ok m curr c Hc). cbn [bind negb]. fold (lock1 m curr c).
    assert (EK : aW a = key) by (apply is_prefix_eq_len; auto; lia).
    assert (HPC : parent <> curr).
    { destruct Hloc as [(-> & _)|(ap & b & s & q & cp & Hap & Hb & _)].
      - intros <-. rewrite (h_zero _ _ _ H) in Ha. discriminate.
      - exact (pm_neq r A I parent b curr ap Hap Hb). }
    assert (Hpc1 : cell_at (lock1 m curr c) parent = Some pc).
    { unfold lock1. pose proof (cell_lt _ _ _ Hc). cellc. exact Hpc. }
    rewrite (rUnlock_with_ok (lock1 m curr c) parent pc curr Hpc1). cbn [bind negb].
    destruct (t_put r A I curr a key value Ha P2) as (I' & P').
    { unfold writable. now rewrite EN. }
    unfold put_entry in I', P'. rewrite EN in I', P'.
    destruct (inplace m r A curr a c (updatePrefixLeaf (c_node c) key value) (with_leaf a (Some value)) H Ha Hc) as (m' & EX & H'); auto.
    { rewrite <- EK. apply rep_set_leaf; auto. now rewrite EK. }
    destruct (put_node _ _ _) as [m3| |]; cbn [bind] in EX |- *; try discriminate.
    rewrite EX. cbn [bind]. exists m'. split; auto. exists r, (aset A curr (Some (with_leaf a (Some value)))). auto.
  - destruct (nth_error key (length (aW a))) as [b|] eqn:Eb. 2: { apply nth_error_None in Eb. lia. }
    rewrite (idx_Some _ _ _ Eb). cbn [bind]. pose proof (bytes_ok_nth _ _ _ HK Eb) as Hb256.
    destruct (find_rep _ _ _ R b Hb256) as (slot & pos & Ef & Hsl).
    rewrite Ef. cbn [bind]. rewrite (rUnlock_ok m curr c Hc). cbn [bind negb].
    assert (HPC : parent <> curr).
    { destruct Hloc as [(-> & _)|(ap & b0 & s & q & cp & Hap & Hb & _)].
      - intros <-. rewrite (h_zero _ _ _ H) in Ha. discriminate.
      - exact (pm_neq r A I parent b0 curr ap Hap Hb). }
    assert (Hpc1 : cell_at (lock1 m curr c) parent = Some pc).
    { unfold lock1. pose proof (cell_lt _ _ _ Hc). cellc. exact Hpc. }
    assert (Hc1 : cell_at (lock1 m parent pc) curr = Some c).
    { unfold lock1. pose proof (cell_lt _ _ _ Hpc). cellc. exact Hc. }
    destruct (aCh a b) as [[k0 v0|m0]|] eqn:Ech; cbn [option_map conv].
    + (* leaf *)
      rewrite (rUnlock_ok m parent pc Hpc). cbn [bind negb].
      rewrite (upgrade_ok m curr c Hc). cbn [bind negb]. fold (lock1 m curr c).
      destruct (nr_keys _ _ _ R k0 v0) as (G1 & G2 & G3); [right; eauto|].
      assert (HW0 : is_prefix (aW a ++ [b]) key) by (apply is_prefix_snoc; auto).
      assert (HW1 : is_prefix (aW a ++ [b]) k0) by (eapply (ai_leaf r A I); eauto).
      assert (Hcc : cell_at (lock1 m curr c) curr = Some (mkCell (w64 (c_ver c + 2)) (c_node c))).
      { unfold lock1. pose proof (cell_lt _ _ _ Hc). cellc. reflexivity. }
      specialize (Hsl ltac:(congruence)). pose proof (cell_lt _ _ _ Hc) as Lc.
      destruct (beqb key k0) eqn:EB.
      * apply beqb_eq in EB. subst k0. rewrite update_same by auto. cbn [bind].
        destruct (rep_set_child _ _ _ R b slot pos (AL key value) ltac:(congruence) Hsl) as (Hs1 & R1); [cbn; auto|].
        rewrite (store_slot_ok _ curr slot _ _ Hcc Hs1). cbn [bind c_ver c_node].
        unfold lock1. erewrite unlock_ok by cfact. cbn [bind c_ver c_node]. rewrite !upd_upd by msz.
        eexists. split; [reflexivity|].
        destruct (t_put r A I curr a key value Ha P2) as (I' & P').
        { unfold writable. rewrite Eb. right. eauto. }
        unfold put_entry in I', P'. rewrite Eb in I', P'.
        exists r, (aset A curr (Some (with_child a b (Some (AL key value))))). split; [|exact P'].
        now apply hrep_write with (a := a).
      * assert (Hne : key <> k0) by (intros ->; rewrite beqb_refl in EB; discriminate).
        destruct (expand_spec k0 v0 key value (aW a ++ [b])) as (nn & Wx & EE & X1 & X2 & X3 & X4 & X5); auto.
        rewrite app_length in *. cbn [length] in *. rewrite EE. cbn [bind].
        pose proof (hrep_fresh _ _ _ H) as Hx.
        replace (length Wx - (length (aW a) + 1)) with (length Wx - length (aW a) - 1) in * by lia.
        destruct (put_expand r A I curr b (mlen m) a Wx k0 v0 key value Ha Ech Hx X1 X2 X3 X4) as (I' & P').
        destruct (rep_set_child _ _ _ R b slot pos (AN (mlen m)) ltac:(congruence) Hsl Logic.I) as (Hs1 & R1).
        destruct (alloc (lock1 m curr c) nn) as (m4, na) eqn:EA.
        assert (E4 : m4 = fst (alloc (lock1 m curr c) nn)) by now rewrite EA. assert (Ena : na = mlen m).
        { transitivity (mlen (lock1 m curr c)); [|unfold lock1; now rewrite !mlen_upd]. now inversion EA. }
        rewrite E4. clear EA E4 m4. subst na. unfold lock1.
        erewrite store_slot_ok; [|cfact|cbn [c_node]; exact Hs1]. cbn [bind c_ver c_node].
        erewrite unlock_ok by cfact. cbn [bind c_ver c_node].
        eexists. split; [reflexivity|].
        exists r, (expand_put A curr b (mlen m) a Wx k0 v0 key value). split; [|exact P'].
        assert (Hc0 : curr <> 0) by (intros ->; rewrite (h_zero _ _ _ H) in Ha; discriminate).
        assert (Hxr : mlen m <> r). { destruct (ai_root r A I) as (ar & Har & _). congruence. }
        constructor; auto.
        -- exact (h_root _ _ _ H).
        -- destruct (h_dummy _ _ _ H) as (d & Hdm & Pd). exists d. split; auto. cellc. exact Hdm.
        -- unfold expand_put. rewrite !aset_ne by (auto; lia). apply (h_zero _ _ _ H).
        -- intros n y Hy. destruct (Nat.eq_dec n (mlen m)) as [->|N1].
           ++ unfold expand_put in Hy. rewrite aset_eq in Hy. inversion Hy; subst y.
              eexists. split; [cfact|]. split; [reflexivity|]. rewrite (proj2 (Nat.eqb_neq _ _) Hxr). exact X5.
           ++ destruct (Nat.eq_dec n curr) as [->|N2].
              ** unfold expand_put in Hy. rewrite aset_ne, aset_eq in Hy by lia. inversion Hy; subst y.
                 eexists. split; [cfact|]. cbn [c_ver c_node]. split; [now apply unl_relock|]. exact R1.
              ** unfold expand_put in Hy. rewrite !aset_ne in Hy by auto. cellc. apply (h_node _ _ _ H _ _ Hy).
    + (* inner node *)
      rewrite (rUnlock_ok m parent pc Hpc). cbn [bind negb].
      destruct (ai_node r A I _ _ _ _ Ha Ech) as (am & Hm & PM & LM).
      destruct (h_node _ _ _ H _ _ Hm) as (cm & Hcm & _).
      apply (IH (length (aW a) + 1) curr c (LSlot curr slot) m0 am cm); auto; try lia.
      * right. exists a, b, slot, pos, c. specialize (Hsl ltac:(congruence)). auto.
      * replace (length (aW a) + 1) with (length (aW a ++ [b])) by (rewrite app_length; reflexivity).
        apply is_prefix_firstn in PM. rewrite PM. apply is_prefix_snoc. auto.
    + (* empty slot *)
      assert (HW : writable a key) by (unfold writable; rewrite Eb; auto).
      assert (EPE : put_entry a key value = with_child a b (Some (AL key value))) by (unfold put_entry; now rewrite Eb).
      destruct (full_dec _ _ _ R b Hb256 Ech) as (f & EF). rewrite EF. cbn [bind]. destruct f.
      * rewrite (upgrade_ok m parent pc Hpc). cbn [bind negb]. fold (lock1 m parent pc).
        rewrite (upgrade_with_ok (lock1 m parent pc) curr c parent Hc1). cbn [bind negb]. fold (lock1 (lock1 m parent pc) curr c).
        fold (lock2 m parent pc curr c).
        destruct (rep_grow _ _ _ R b (AL key value) Ech Hb256 ltac:(cbn; auto) EF) as (nn & EG & _ & R').
        cbn [conv] in EG. rewrite EG. cbn [bind].
        assert (ET : forall l, (let '(m3, na) := alloc (lock2 m parent pc curr c) nn in
           m4 <- store m3 l (PNode na) ;; m5 <- unlockObsolete m4 curr ;; m6 <- unlock m5 parent ;; Ok (m6, true)) =
           (m6 <- move_tail (lock2 m parent pc curr c) nn l curr parent ;; Ok (m6, true))).
        { intros l. unfold move_tail. destruct (alloc _ nn) as (m3, na). destruct (store m3 l (PNode na)) as [m4| |]; auto. cbn [bind].
          destruct (unlockObsolete m4 curr) as [m5| |]; reflexivity. }
        rewrite ET. pose proof (hrep_fresh _ _ _ H) as Hx.
        destruct (Nat.eq_dec curr r) as [->|Hr].
        -- destruct (loc_ok_root _ _ _ _ _ H Hloc) as (-> & ->). rewrite Nat.eqb_refl in R'.
           destruct (put_moved_root A r I (mlen m) a key value Ha Hx P2 HW) as (I' & P'). rewrite EPE in I', P'.
           destruct (move_root m r A pc c a nn _ H Ha Hc Hpc R' I') as (m' & EX & H').
           rewrite EX. cbn [bind]. exists m'. split; auto. eexists _, _. split; [exact H'|exact P'].
        -- destruct (loc_ok_inner m r A parent nodeLoc curr H Hloc Hr) as (ap & b1 & slot1 & pos1 & cp & Hap & Hb1 & -> & Hcp & Hs1 & _).
           assert (cp = pc) by congruence. subst cp. rewrite (proj2 (Nat.eqb_neq _ _) Hr) in R'.
           destruct (put_moved r A I parent b1 curr (mlen m) ap a key value Hap Hb1 Ha Hx P2 HW) as (I' & P'). rewrite EPE in I', P'.
           destruct (move_inner m r A parent pc curr c a nn _ ap b1 slot1 pos1 H Ha Hc Hpc Hr Hap Hb1 Hs1 R' I') as (m' & EX & H').
           rewrite EX. cbn [bind]. exists m'. split; auto. eexists _, _. split; [exact H'|exact P'].
      * rewrite (upgrade_ok m curr c Hc). cbn [bind negb]. fold (lock1 m curr c).
        rewrite (rUnlock_with_ok (lock1 m curr c) parent pc curr Hpc1). cbn [bind negb].
        destruct (rep_insert _ _ _ R b (AL key value) Ech Hb256 ltac:(cbn; auto) EF) as (nn & EG & _ & R').
        cbn [conv] in EG. rewrite EG. cbn [bind].
        destruct (t_put r A I curr a key value Ha P2 HW) as (I' & P'). rewrite EPE in I', P'.
        destruct (inplace m r A curr a c nn _ H Ha Hc R' I') as (m' & EX & H').
        destruct (put_node _ _ _) as [m3| |]; cbn [bind] in EX |- *; try discriminate.
        rewrite EX. cbn [bind]. exists m'. split; auto. eexists _, _. split; [exact H'|exact P'].
Qed.

Theorem Put_spec m r A key value : hrep m r A -> bytes_ok key -> fits32 (length key) -> fits32 (length value) ->
  exists m' r' A', hrep m' r' A' /\ putted A A' key value /\
    exists N, forall fuel, N <= fuel -> Put fuel m key value = Ok m'.
Proof.
  intros H HK F1 F2. destruct (wbound_exists _ _ _ H) as (D & HD).
  destruct (h_dummy _ _ _ H) as (d & Hd & Ud & _).
  destruct (root_start r A (h_inv _ _ _ H)) as (a & Ha & Hz & EW & EPL).
  destruct (h_node _ _ _ H _ _ Ha) as (c & Hc & _).
  assert (G : forall fuel ff, D + 2 <= ff -> length key + 1 <= fuel ->
     exists m', insert fuel ff m key value 0 0 (c_ver d) LRoot r = Ok (m', true) /\ put_post m' A key value).
  { intros fuel ff H1 H2. apply (insert_spec m r A D key value ff H HD H1 HK F1 F2 fuel 0 0 d LRoot r a c); auto.
    - left. auto.
    - exists key. reflexivity.
    - lia. }
  assert (E : forall fuel, D + 3 + length key <= fuel -> exists m', Put fuel m key value = Ok m' /\ put_post m' A key value).
  { intros fuel Hf. destruct (G fuel fuel) as (m' & E1 & P1); [lia|lia|]. exists m'. split; auto.
    unfold Put. destruct fuel as [|f]; [lia|]. cbn [Put_loop].
    rewrite (h_root _ _ _ H), (waitUnlock_ok m 0 d Hd Ud). cbn [bind]. rewrite E1. reflexivity. }
  destruct (E (D + 3 + length key)) as (m' & E1 & r' & A' & H' & P'); [lia|].
  exists m', r', A'. split; auto. split; auto. exists (D + 3 + length key). intros fuel Hf.
  eapply leR_Ok; [apply Put_mono; exact Hf|exact E1].
Qed.
