(** * ArtSeq3: Delete unbinds exactly its key whenever it returns, and when it returns. *)
From Verif Require Import Base BitsModel BitsFacts VecModel VecProofs VecProofs2 ArtNode
  ArtNodeProofs ArtNodeProofs2 ArtNodeProofs3 ArtModel ArtTree ArtTree2 ArtRep ArtRep2 ArtTree3 ArtSeq ArtMono ArtSeq2.
Ltac Zify.zify_post_hook ::= Z.div_mod_to_equations.

Definition del_post (m' : mem) (A : aheap) (key : bytes) : Prop :=
  exists r' A', hrep m' r' A' /\ deleted A A' key.

Definition finish_tail (m3 : mem) (curr parent : nat) : res (mem * bool) := finish_remove m3 true curr parent.

Lemma del_entry_child a key b p : aCh (del_entry a key) b = Some p -> aCh a b = Some p.
Proof.
  unfold del_entry. destruct (nth_error key _) as [b0|]; cbn; auto. unfold cset.
  destruct (Nat.eqb b b0); [discriminate|auto].
Qed.

(** A leaf takes the place of [curr] in the parent. *)
Lemma collapse_exit m r A parent pc curr c a ap b slot pos k0 v0 key :
  hrep m r A -> A curr = Some a -> cell_at m curr = Some c -> cell_at m parent = Some pc ->
  curr <> r -> A parent = Some ap -> aCh ap b = Some (AN curr) -> slot_of (c_node pc) b slot pos ->
  is_prefix (aW a) key -> has_entry a key ->
  (forall k v, holds (del_entry a key) k v <-> k = k0 /\ v = v0) ->
  (forall x q, aCh (del_entry a key) x <> Some (AN q)) ->
  fits32 (length k0) /\ fits32 (length v0) /\ bytes_ok k0 ->
  exists m', (m3 <- store (lock2 m parent pc curr c) (LSlot parent slot) (PLeaf (newLeaf k0 v0)) ;;
              finish_remove m3 true curr parent) = Ok (m', true) /\ del_post m' A key.
Proof.
  intros H Ha Hc Hpc Hr Hap Hb Hs HP HE HH HN HF. pose proof (h_inv _ _ _ H) as I.
  destruct (h_node _ _ _ H _ _ Hap) as (c' & Hc' & Hup & Rp). assert (c' = pc) by congruence. subst c'. clear Hc'.
  assert (Hpcur : parent <> curr) by exact (pm_neq r A I parent b curr ap Hap Hb).
  pose proof (cell_lt _ _ _ Hc) as Lc. pose proof (cell_lt _ _ _ Hpc) as Lp.
  pose proof (hrep_fresh _ _ _ H) as Hx.
  assert (Hp0 : parent <> 0) by (intros ->; rewrite (h_zero _ _ _ H) in Hap; discriminate).
  assert (Hc0 : curr <> 0) by (intros ->; rewrite (h_zero _ _ _ H) in Ha; discriminate).
  destruct (rep_set_child _ _ _ Rp b slot pos (AL k0 v0) ltac:(congruence) Hs HF) as (Hsl & Rp'). cbn [conv] in Rp'.
  unfold lock2, lock1, finish_remove.
  erewrite store_slot_ok; [|cfact|cbn [c_node]; exact Hsl]. cbn [bind c_ver c_node].
  erewrite unlockObsolete_ok by cfact. cbn [bind c_ver c_node].
  erewrite unlock_ok by cfact. cbn [bind c_ver c_node].
  eexists. split; [reflexivity|].
  destruct (del_collapse r A I parent b curr ap a k0 v0 key Hap Hb Ha HP HE HH HN) as (I' & D').
  exists r, (collapse A parent b curr ap k0 v0). split; [|exact D'].
  assert (Hxr : mlen m <> r). { destruct (ai_root r A I) as (ar & Har & _). congruence. }
  refine (hrep_three m r A parent curr (mlen m) _ r _ None dummyNode H Hpcur Lp Lc eq_refl _ I' _ _ _ _ _ _ _ _).
  - exact (h_root _ _ _ H).
  - intros n N1 N2 N3. unfold collapse. now rewrite !aset_ne by auto.
  - intros n N1 N2 N3. cellc. reflexivity.
  - unfold collapse. rewrite !aset_ne by (auto; lia). apply (h_zero _ _ _ H).
  - destruct (h_dummy _ _ _ H) as (d & Hdm & Pd). exists d. split; auto. cellc. exact Hdm.
  - auto.
  - intros x Hx'. unfold collapse in Hx'. rewrite aset_ne, aset_eq in Hx' by auto. inversion Hx'; subst x.
    eexists. split; [cfact|]. cbn [c_ver c_node]. split; [now apply unl_relock|]. exact Rp'.
  - intros x Hx'. unfold collapse in Hx'. rewrite aset_eq in Hx'. discriminate.
  - split; [|split; congruence]. unfold collapse. rewrite !aset_ne by lia. exact Hx.
Qed.

(** The only remaining child takes the place of [curr] in the parent. *)
Lemma compress_exit m r A parent pc curr c a ap b slot pos i c0 p key :
  hrep m r A -> A curr = Some a -> cell_at m curr = Some c -> cell_at m parent = Some pc ->
  curr <> r -> A parent = Some ap -> aCh ap b = Some (AN curr) -> slot_of (c_node pc) b slot pos ->
  is_prefix (aW a) key -> has_entry a key ->
  n_type (c_node c) = Node4 -> i < n_num (c_node c) -> nth i (n_keys (c_node c)) 0 = c0 ->
  aCh (del_entry a key) c0 = Some p -> (forall x, x <> c0 -> aCh (del_entry a key) x = None) ->
  aLeaf (del_entry a key) = None ->
  exists m', (' (m3, ok) <- compressChild (lock2 m parent pc curr c) curr i (LSlot parent slot) ;;
              finish_remove m3 ok curr parent) = Ok (m', true) /\ del_post m' A key.
Proof.
  intros H Ha Hc Hpc Hr Hap Hb Hs HP HE HT Hi Hk Hch Ho HL. pose proof (h_inv _ _ _ H) as I.
  destruct (h_node _ _ _ H _ _ Ha) as (c' & Hc' & Hu & R). assert (c' = c) by congruence. subst c'. clear Hc'.
  assert (Hpcur : parent <> curr) by exact (pm_neq r A I parent b curr ap Hap Hb).
  pose proof (cell_lt _ _ _ Hc) as Lc. pose proof (cell_lt _ _ _ Hpc) as Lp.
  pose proof (nr_layout _ _ _ R) as (_ & _ & LO). rewrite HT in LO.
  pose proof (del_entry_child _ _ _ _ Hch) as Hch0.
  assert (EI : nth i (n_children (c_node c)) None = Some (conv p)).
  { assert (EV : V (c_node c) c0 = Some (conv p)) by (rewrite (nr_V _ _ _ R), Hch0; reflexivity).
    apply (V_small _ _ _ LO) in EV as (j & Hj & Kj & Cj). assert (j = i) by (apply (so_inj _ LO); auto; congruence). now subst j. }
  assert (Lch : i < length (n_children (c_node c))) by (rewrite (so_clen _ LO); pose proof (so_num _ LO); lia).
  assert (Lk : i < length (n_keys (c_node c))) by (rewrite (so_klen _ LO); pose proof (so_num _ LO); lia).
  assert (E2 : cell_at (lock2 m parent pc curr c) curr = Some (mkCell (w64 (c_ver c + 2)) (c_node c))) by (unfold lock2, lock1; cfact).
  unfold compressChild. rewrite (get_node_ok _ _ _ E2). cbn [bind c_node]. rewrite (idx_in _ i None) by auto. cbn [bind]. rewrite EI.
  destruct p as [k0 v0|m0]; cbn [conv].
  - destruct (collapse_exit m r A parent pc curr c a ap b slot pos k0 v0 key) as (m' & EX & PO); auto.
    + intros k v. unfold holds. rewrite HL. split.
      * intros [(_ & X)|(x & X)]; [discriminate|]. destruct (Nat.eq_dec x c0) as [->|Hne]; [|rewrite Ho in X by auto; discriminate].
        rewrite Hch in X. inversion X; auto.
      * intros (-> & ->). right. eauto.
    + intros x q X. destruct (Nat.eq_dec x c0) as [->|Hne]; [congruence|rewrite Ho in X by auto; discriminate].
    + apply (nr_keys _ _ _ R). right. eauto.
    + exists m'. split; auto. destruct (store _ _ _) as [m3| |]; cbn [bind] in EX |- *; auto.
  - destruct (ai_node r A I _ _ _ _ Ha Hch0) as (am & Hm & PM & LM).
    destruct (h_node _ _ _ H _ _ Hm) as (cm & Hcm & Hum & Rm).
    destruct (h_node _ _ _ H _ _ Hap) as (c' & Hc' & Hup & Rp). assert (c' = pc) by congruence. subst c'. clear Hc'.
    pose proof (cell_lt _ _ _ Hcm) as Lm.
    assert (Hcm0 : curr <> m0) by exact (pm_neq r A I curr c0 m0 a Ha Hch0).
    assert (Hpm0 : parent <> m0).
    { intros <-. assert (am = ap) by congruence. subst am. destruct (ai_node r A I _ _ _ _ Hap Hb) as (a2 & Ha2 & _ & L2).
      assert (a2 = a) by congruence. subst. lia. }
    assert (Hp0 : parent <> 0) by (intros ->; rewrite (h_zero _ _ _ H) in Hap; discriminate).
    assert (Hc0 : curr <> 0) by (intros ->; rewrite (h_zero _ _ _ H) in Ha; discriminate).
    assert (Hm00 : m0 <> 0) by (intros ->; rewrite (h_zero _ _ _ H) in Hm; discriminate).
    assert (Hm0r : m0 <> r) by (intros ->; exact (root_no_parent r A I _ _ _ Ha Hch0)).
    destruct (merge_spec _ (c_node c) a _ (c_node cm) am i c0 R Rm) as (pre & tmp & EM & Lpre & Rm'); auto.
    { rewrite <- Hk. now apply nth_error_nth'. }
    destruct (rep_set_child _ _ _ Rp b slot pos (AN m0) ltac:(congruence) Hs Logic.I) as (Hsl & Rp'). cbn [conv] in Rp'.
    unfold lock. rewrite (rLock_ok _ m0 cm); [|unfold lock2, lock1; cfact|auto]. cbn [bind negb].
    rewrite (upgrade_ok _ m0 cm) by (unfold lock2, lock1; cfact). cbn [bind negb].
    unfold lock2, lock1. erewrite get_node_ok by cfact. cbn [bind c_node]. rewrite EM. cbn [bind].
    erewrite put_node_ok by cfact. cbn [bind c_ver c_node].
    erewrite put_node_ok by cfact. cbn [bind c_ver c_node].
    erewrite unlock_ok by cfact. cbn [bind c_ver c_node].
    erewrite store_slot_ok; [|cfact|cbn [c_node]; exact Hsl]. cbn [bind c_ver c_node].
    unfold finish_remove. erewrite unlockObsolete_ok by cfact. cbn [bind c_ver c_node].
    erewrite unlock_ok by cfact. cbn [bind c_ver c_node].
    eexists. split; [reflexivity|].
    destruct (del_compress r A I parent b curr c0 m0 ap a am key Hap Hb Ha HP HE HL Hch Ho Hm) as (I' & D').
    exists r, (compress A parent b curr m0 ap a am). split; [|exact D'].
    constructor; auto.
    + exact (h_root _ _ _ H).
    + destruct (h_dummy _ _ _ H) as (d & Hdm & Pd). exists d. split; auto. cellc. exact Hdm.
    + unfold compress. rewrite !aset_ne by auto. apply (h_zero _ _ _ H).
    + intros n y Hy. unfold compress in Hy. destruct (Nat.eq_dec n curr) as [->|N1]; [rewrite aset_eq in Hy; discriminate|].
      rewrite aset_ne in Hy by auto. destruct (Nat.eq_dec n m0) as [->|N2].
      * rewrite aset_eq in Hy. inversion Hy; subst y. eexists. split; [cfact|]. cbn [c_ver c_node].
        split; [now apply unl_relock|]. exact Rm'.
      * rewrite aset_ne in Hy by auto. destruct (Nat.eq_dec n parent) as [->|N3].
        -- rewrite aset_eq in Hy. inversion Hy; subst y. eexists. split; [cfact|]. cbn [c_ver c_node].
           split; [now apply unl_relock|]. exact Rp'.
        -- rewrite aset_ne in Hy by auto. cellc. apply (h_node _ _ _ H _ _ Hy).
Qed.

Lemma cnt_two_le f n i j : i < n -> j < n -> i <> j -> f i = true -> f j = true -> 2 <= cnt f n.
Proof.
  intros Hi Hj Hne Fi Fj. rewrite (cnt_set (fun x => f x && negb (Nat.eqb x i)) f i n); auto.
  - assert (0 < cnt (fun x => f x && negb (Nat.eqb x i)) n); [|lia].
    apply (cnt_pos _ n j Hj). rewrite Fj. cbn. now rewrite (proj2 (Nat.eqb_neq j i)) by auto.
  - cbn. rewrite Nat.eqb_refl. now rewrite andb_false_r.
  - intros x Hx Hn. rewrite (proj2 (Nat.eqb_neq x i)) by auto. now rewrite andb_true_r.
Qed.

Lemma four_small root nd a : nrep root nd a -> n_type nd = Node4 -> small_ok nd /\ nchild nd = n_num nd.
Proof.
  intros R T. pose proof (nr_layout _ _ _ R) as (_ & _ & L). rewrite T in L. split; auto. now apply small_count.
Qed.

(** Every child of a small node sits at some position. *)
Lemma small_pos root nd a b p : nrep root nd a -> small_ok nd -> aCh a b = Some p ->
  exists i, i < n_num nd /\ nth i (n_keys nd) 0 = b.
Proof.
  intros R L Hb. assert (E : V nd b = Some (conv p)) by (rewrite (nr_V _ _ _ R), Hb; reflexivity).
  apply (V_small _ _ _ L) in E as (i & Hi & K & _). eauto.
Qed.
Lemma small_child root nd a i : nrep root nd a -> small_ok nd -> i < n_num nd ->
  exists p, aCh a (nth i (n_keys nd) 0) = Some p.
Proof.
  intros R L Hi. pose proof (so_some _ L i Hi) as HS. destruct (nth i (n_children nd) None) as [q|] eqn:E; [|congruence].
  assert (EV : V nd (nth i (n_keys nd) 0) = Some q) by (apply (V_small _ _ _ L); eauto).
  rewrite (nr_V _ _ _ R) in EV. destruct (aCh a _) as [p|]; [eauto|discriminate].
Qed.

Definition absent (A : aheap) (key : bytes) : Prop := forall v, ~ contents A key v.

Lemma absent_deleted A key : absent A key -> deleted A A key.
Proof. intros H. split; [exact H|]. reflexivity. Qed.

(** What a node compares of its compressed path: its length and at most eight of its bytes. *)
Definition passes (a : anode) (key : bytes) : Prop := length (aW a) <= length key /\
  forall i, length (aW a) - aPL a <= i -> i < length (aW a) -> i < length (aW a) - aPL a + 8 -> nth_error key i = nth_error (aW a) i.
Lemma passes_prefix a key : is_prefix (aW a) key -> passes a key.
Proof. intros P. split; [now apply is_prefix_length|]. intros i _ L _. now apply is_prefix_nth. Qed.

Lemma nth_error_nth_eq {X} (l1 l2 : list X) i d : i < length l1 -> i < length l2 -> (nth_error l1 i = nth_error l2 i <-> nth i l1 d = nth i l2 d).
Proof. intros L1 L2. rewrite (nth_error_nth' l1 d L1), (nth_error_nth' l2 d L2). split; congruence. Qed.
Lemma nth_cut (l : bytes) n k i : i < n -> nth i (firstn n (skipn k l)) 0 = nth (k + i) l 0.
Proof. intros H. rewrite nth_firstn by auto. now rewrite nth_skipn. Qed.

Lemma check_exact root nd a : nrep root nd a -> forall key d b, length (aW a) - aPL a <= length key ->
  checkPrefixN nd key (length (aW a) - aPL a) = Ok (d, b) -> (b = true <-> passes a key).
Proof.
  intros R key d b Hk E. pose proof (nr_pl _ _ _ R) as HP. unfold checkPrefixN in E. rewrite (nr_plen _ _ _ R) in E.
  destruct (Nat.eqb_spec (aPL a) 0) as [E0|E0].
  - apply Ok_inj in E. pose proof (f_equal snd E) as EB. cbn in EB. subst b. split; auto. intros _. split; lia.
  - destruct (Nat.ltb_spec (length key) (length (aW a) - aPL a + aPL a)).
    + apply Ok_inj in E. pose proof (f_equal snd E) as EB. cbn in EB. subst b. split; [discriminate|]. intros (L & _). lia.
    + rewrite slice_ok in E by lia. cbn [bind] in E. rewrite copy_pad8 in E. cbn [bind] in E.
      apply Ok_inj in E. pose proof (f_equal snd E) as EB. cbn in EB. clear E. rewrite (nr_prefix _ _ _ R) in EB. unfold stored in EB.
      replace (length (aW a) - aPL a + aPL a - (length (aW a) - aPL a)) with (aPL a) in EB by lia.
      set (s := length (aW a) - aPL a) in *.
      assert (X : b = true <-> pad8 (firstn (aPL a) (skipn s key)) = pad8 (skipn s (aW a))).
      { rewrite <- EB. apply beqb_eq. }
      rewrite X. clear X EB. split.
      * intros EQ. split; [lia|]. intros i L1 L2 L3. apply (nth_error_nth_eq _ _ _ 0); [lia|lia|].
        assert (Q : nth (i - s) (pad8 (firstn (aPL a) (skipn s key))) 0 = nth (i - s) (pad8 (skipn s (aW a))) 0) by now rewrite EQ.
        rewrite !nth_pad8, nth_cut, nth_skipn in Q by lia. replace (s + (i - s)) with i in Q by lia. exact Q.
      * intros (L & Q). apply pad8_ext; [apply pad8_length|]. intros i Hi. rewrite nth_pad8 by auto.
        destruct (Nat.lt_ge_cases i (aPL a)) as [Li|Li].
        -- rewrite nth_cut, nth_skipn by auto. apply (nth_error_nth_eq _ _ _ 0); [lia|lia|]. apply Q; lia.
        -- rewrite !nth_overflow; auto; rewrite ?firstn_length, !skipn_length; lia.
Qed.

(** The nodes whose compressed paths a descent has compared before it arrives. *)
Inductive cpath (r : nat) (A : aheap) (key : bytes) : nat -> Prop :=
| cp_root : cpath r A key r
| cp_step n a m : cpath r A key n -> A n = Some a -> passes a key -> anext A key n = Some m -> cpath r A key m.
Lemma cpath_apath r A key n : cpath r A key n -> apath r A key n.
Proof. induction 1; [apply apath_root|eapply apath_step; eauto]. Qed.

(** The descent of an absent key stops at a node that holds nothing for it ... *)
Definition ends_open (r : nat) (A : aheap) (key : bytes) : Prop := exists n a, cpath r A key n /\ A n = Some a /\
  (~ passes a key \/ length (aW a) = length key \/
   exists b, nth_error key (length (aW a)) = Some b /\ aCh a b = None).
(** ... or at the leaf of another key. *)
Definition ends_leaf (r : nat) (A : aheap) (key : bytes) : Prop := exists n a b k0 v0, cpath r A key n /\ A n = Some a /\
  passes a key /\ nth_error key (length (aW a)) = Some b /\ aCh a b = Some (AL k0 v0) /\ k0 <> key.

Lemma remove_spec m r A key : hrep m r A -> bytes_ok key ->
  forall fuel depth parent pc nodeLoc curr a c,
  cpath r A key curr -> A curr = Some a -> cell_at m curr = Some c -> cell_at m parent = Some pc ->
  loc_ok m r A parent nodeLoc curr ->
  depth = length (aW a) - aPL a -> depth <= length key ->
  length key + 1 - depth <= fuel ->
  (exists m' v, remove fuel m key depth parent (c_ver pc) nodeLoc curr = Ok (m', true) /\
     contents A key v /\ del_post m' A key) \/
  (remove fuel m key depth parent (c_ver pc) nodeLoc curr = Ok (m, true) /\ absent A key /\ ends_open r A key) \/
  (remove fuel m key depth parent (c_ver pc) nodeLoc curr = Ok (m, false) /\ absent A key /\ ends_leaf r A key).
Proof.
  intros H HK. pose proof (h_inv _ _ _ H) as I.
  induction fuel as [|fuel IH]; intros depth parent pc nodeLoc curr a c HCP Ha Hc Hpc Hloc Hd Hdk Hf; [lia|].
  pose proof (cpath_apath _ _ _ _ HCP) as HA.
  destruct (h_node _ _ _ H _ _ Ha) as (c' & Hc' & Hu & R). assert (c' = c) by congruence. subst c'. clear Hc'.
  cbn [remove]. rewrite (rLock_ok m curr c Hc Hu). cbn [bind negb]. rewrite (rUnlock_ok m parent pc Hpc). cbn [bind negb].
  rewrite (get_node_ok m curr c Hc). cbn [bind]. rewrite (get_node_ok m parent pc Hpc). cbn [bind].
  destruct (check_spec _ _ _ R key depth Hd Hdk) as (d & bb & Ec & Ht & Hff). rewrite Ec. cbn [bind].
  assert (CX : bb = true <-> passes a key) by (rewrite Hd in Ec; eapply check_exact; eauto; lia).
  destruct bb; cbn [negb].
  2: { rewrite ?(rUnlock_ok m curr c Hc). cbn [bind]. right; left. split; auto.
       split; [|exists curr, a; split; auto; split; auto; left; rewrite <- CX; discriminate]. intros v HC.
       apply (Hff eq_refl). eapply (contents_path_prefix r A I); eauto. }
  destruct (Ht eq_refl) as (-> & HW). clear Ht Hff Ec. assert (PA : passes a key) by now apply CX.
  assert (LH : forall v, holds a key v <-> alookup a key = Some v) by (intros; eapply (local_holds r A I); eauto).
  assert (HT : (curr = r /\ parent = 0 /\ nodeLoc = LRoot /\ n_type (c_node pc) = Dummy) \/
               (curr <> r /\ n_type (c_node pc) <> Dummy)).
  { destruct (Nat.eq_dec curr r) as [E|E].
    - left. rewrite E in Hloc. destruct (loc_ok_root _ _ _ _ _ H Hloc) as (-> & ->).
      destruct (h_dummy _ _ _ H) as (dd & Hdd & _ & T). replace pc with dd by congruence. auto.
    - right. split; auto. destruct (loc_ok_inner _ _ _ _ _ _ H Hloc E) as (ap & b & s & q & cp & _ & _ & _ & Hcp & _ & Rp & _).
      replace pc with cp by congruence. pose proof (nr_layout _ _ _ Rp) as (_ & _ & L). intros T. rewrite T in L. exact L. }
  assert (HPC : parent <> curr).
  { destruct Hloc as [(-> & _)|(ap & b0 & s & q & cp & Hap & Hb & _)].
    - intros <-. rewrite (h_zero _ _ _ H) in Ha. discriminate.
    - exact (pm_neq r A I parent b0 curr ap Hap Hb). }
  assert (Hc1 : cell_at (lock1 m parent pc) curr = Some c).
  { unfold lock1. pose proof (cell_lt _ _ _ Hpc). cellc. exact Hc. }
  destruct (Nat.eqb_spec (length (aW a)) (length key)) as [El|El].
  - (* the key ends here *)
    rewrite ?(rUnlock_ok m curr c Hc). cbn [bind negb]. rewrite (nr_pleaf _ _ _ R).
    assert (EN : nth_error key (length (aW a)) = None) by (apply nth_error_None; lia).
    assert (HN : anext A key curr = None) by (unfold anext; rewrite Ha, EN; reflexivity).
    unfold alookup in LH. rewrite EN in LH.
    destruct (aLeaf a) as [v0|] eqn:EL; cbn [option_map].
    2: { cbn [bind negb].
 rewrite ?(rUnlock_ok m curr c Hc). cbn [bind]. right; left. split; auto. split; [|exists curr, a; auto]. intros v.
         rewrite (contents_at r A I key curr a v HA HN Ha), LH. destruct (beqb (aW a) key); discriminate. }
    destruct (nr_keys _ _ _ R (aW a) v0) as (F1 & F2 & _); [left; auto|].
    rewrite leaf_match_newLeaf by auto. cbn [bind]. destruct (beqb (aW a) key) eqn:EB; cbn [negb].
    2: { rewrite ?(rUnlock_ok m curr c Hc). cbn [bind]. right; left. split; auto. split; [|exists curr, a; auto]. intros v.
         rewrite (contents_at r A I key curr a v HA HN Ha), LH. discriminate. }
    apply beqb_eq in EB. left.
    assert (HC : contents A key v0) by (rewrite (contents_at r A I key curr a v0 HA HN Ha), LH; reflexivity).
    assert (HP : is_prefix (aW a) key) by (rewrite EB; apply is_prefix_refl).
    assert (HE : has_entry a key) by (unfold has_entry; rewrite EN, EL; discriminate).
    assert (ED : del_entry a key = with_leaf a None) by (unfold del_entry; now rewrite EN).
    destruct (shouldCompress (c_node c) (n_type (c_node pc))) eqn:ES.
    + unfold shouldCompress in ES. destruct (n_type (c_node c)) eqn:ET; try discriminate.
      apply andb_true_iff in ES as (E1 & E2). apply Nat.eqb_eq in E1.
      destruct HT as [(_ & _ & _ & T)|(Hr & _)]; [rewrite T in E2; discriminate|].
      destruct (loc_ok_inner m r A parent nodeLoc curr H Hloc Hr) as (ap & b1 & slot1 & pos1 & cp & Hap & Hb1 & -> & Hcp & Hs1 & _).
      assert (cp = pc) by congruence. subst cp.
      rewrite (upgrade_ok m parent pc Hpc). cbn [bind negb]. fold (lock1 m parent pc).
      rewrite (upgrade_with_ok (lock1 m parent pc) curr c parent Hc1). cbn [bind negb]. fold (lock1 (lock1 m parent pc) curr c).
      fold (lock2 m parent pc curr c).
      destruct (four_small _ _ _ R ET) as (SO & EC). 
      destruct (small_child _ _ _ 0 R SO ltac:(lia)) as (p & Hp).
      destruct (compress_exit m r A parent pc curr c a ap b1 slot1 pos1 0 (nth 0 (n_keys (c_node c)) 0) p key) as (m' & EX & PO); auto; try lia.
      * now rewrite ED.
      * intros x Hx. rewrite ED. cbn. destruct (aCh a x) as [q|] eqn:Eq; auto. exfalso.
        destruct (small_pos _ _ _ _ _ R SO Eq) as (j & Hj & Kj). assert (j = 0) by lia. subst j. congruence.
      * now rewrite ED.
      * exists m', v0. auto.
    + rewrite (upgrade_ok m curr c Hc). cbn [bind negb]. fold (lock1 m curr c).
      destruct (t_del r A I curr a key Ha HP HE) as (I' & P'). rewrite ED in I', P'.
      destruct (inplace m r A curr a c (set_pleaf (c_node c) None) (with_leaf a None) H Ha Hc) as (m' & EX & H'); auto.
      { apply (rep_clear_leaf _ _ _ R). intros Hroot. apply Nat.eqb_neq in Hroot.
        destruct HT as [(E & _)|(_ & HT)]; [contradiction|].
        pose proof (nr_occ _ _ _ R (proj2 (Nat.eqb_neq _ _) Hroot)) as O. rewrite EL in O. cbn [nleaf] in O.
        pose proof (nr_min _ _ _ R) as HM. unfold shouldCompress in ES.
        destruct (n_type (c_node c)) eqn:ET; cbn [min_size] in HM; try lia.
        - destruct (four_small _ _ _ R ET) as (SO & EC). rewrite EC in *.
          destruct (Nat.eqb_spec (n_num (c_node c)) 1); [|lia]. cbn in ES. destruct (n_type (c_node pc)); try discriminate. congruence.
        - pose proof (nr_layout _ _ _ R) as (_ & _ & L). rewrite ET in L. contradiction. }
      destruct (put_node _ _ _) as [m3| |]; cbn [bind] in EX |- *; try discriminate.
      rewrite EX. cbn [bind]. exists m', v0. split; auto. split; auto. eexists _, _. split; [exact H'|exact P'].
  - replace (Nat.ltb (length key) (length (aW a))) with false by (symmetry; apply Nat.ltb_ge; lia).
    destruct (nth_error key (length (aW a))) as [b|] eqn:Eb. 2: { apply nth_error_None in Eb. lia. }
    rewrite (idx_Some _ _ _ Eb). cbn [bind]. pose proof (bytes_ok_nth _ _ _ HK Eb) as Hb256.
    destruct (find_rep _ _ _ R b Hb256) as (slot & pos & Ef & Hsl).
    rewrite Ef. cbn [bind]. rewrite ?(rUnlock_ok m curr c Hc). cbn [bind negb].
    unfold alookup in LH. rewrite Eb in LH.
    destruct (aCh a b) as [[k0 v0|m0]|] eqn:Ech; cbn [option_map conv].
    + assert (HN : anext A key curr = None) by (unfold anext; rewrite Ha, Eb, Ech; reflexivity).
      destruct (nr_keys _ _ _ R k0 v0) as (F1 & F2 & F3); [right; eauto|].
      rewrite leaf_match_newLeaf by auto. cbn [bind]. destruct (beqb k0 key) eqn:EB; cbn [negb].
      2: { rewrite ?(rUnlock_ok m curr c Hc). cbn [bind negb]. right; right. split; auto. split.
           2: { exists curr, a, b, k0, v0. do 5 (split; [assumption|]). intros EK. rewrite EK, beqb_refl in EB. discriminate. }
           intros v. rewrite (contents_at r A I key curr a v HA HN Ha), LH. discriminate. }
      apply beqb_eq in EB. left.
      assert (HC : contents A key v0) by (rewrite (contents_at r A I key curr a v0 HA HN Ha), LH; reflexivity).
      assert (HP : is_prefix (aW a) key).
      { rewrite <- EB. eapply is_prefix_trans; [apply is_prefix_app_l|]. eapply (ai_leaf r A I); eauto. }
      rewrite EB in Ech.
      assert (HE : has_entry a key) by (unfold has_entry; rewrite Eb; eauto).
      assert (ED : del_entry a key = with_child a b None) by (unfold del_entry; now rewrite Eb).
      specialize (Hsl ltac:(congruence)).
      destruct (shrink_dec _ _ _ R b (n_type (c_node pc)) ltac:(congruence)) as (sh & ESH). rewrite ESH. cbn [bind].
      destruct sh.
      * rewrite (upgrade_ok m parent pc Hpc). cbn [bind negb]. fold (lock1 m parent pc).
        rewrite (upgrade_with_ok (lock1 m parent pc) curr c parent Hc1). cbn [bind negb]. fold (lock1 (lock1 m parent pc) curr c).
        fold (lock2 m parent pc curr c).
        assert (E2 : cell_at (lock2 m parent pc curr c) curr = Some (mkCell (w64 (c_ver c + 2)) (c_node c))).
        { unfold lock2, lock1. pose proof (cell_lt _ _ _ Hc). pose proof (cell_lt _ _ _ Hpc). cfact. }
        unfold removeChildAndShrink. rewrite (get_node_ok _ _ _ E2). cbn [bind c_node].
        destruct (n_type (c_node c)) eqn:ET.
        -- (* node4 *)
           destruct (four_small _ _ _ R ET) as (SO & EC).
           unfold shouldShrink in ESH. rewrite ET in ESH.
           destruct HT as [(_ & _ & _ & T)|(Hr & HT)]; [rewrite T in ESH; discriminate|].
           assert (EDm : ntype_eqb (n_type (c_node pc)) Dummy = false) by (destruct (n_type (c_node pc)); auto; congruence).
           rewrite EDm in ESH.
           destruct (loc_ok_inner m r A parent nodeLoc curr H Hloc Hr) as (ap & b1 & slot1 & pos1 & cp & Hap & Hb1 & -> & Hcp & Hs1 & _).
           assert (cp = pc) by congruence. subst cp.
           pose proof (nr_pleaf _ _ _ R) as EPL. destruct (small_pos _ _ _ _ _ R SO Ech) as (j & Hj & Kj).
           destruct (aLeaf a) as [vl|] eqn:EL; cbn [option_map] in EPL; rewrite EPL in ESH |- *; apply Ok_inj in ESH; apply Nat.leb_le in ESH.
           ++ destruct (collapse_exit m r A parent pc curr c a ap b1 slot1 pos1 (aW a) vl key) as (m' & EX & PO); auto.
              ** intros k v. rewrite ED. unfold holds. cbn. rewrite EL. split.
                 --- intros [(-> & X)|(x & X)]; [inversion X; auto|]. exfalso. unfold cset in X. destruct (Nat.eqb_spec x b); [discriminate|].
                     destruct (small_pos _ _ _ _ _ R SO X) as (j' & Hj' & Kj'). assert (j' = j) by lia. subst j'. congruence.
                 --- intros (-> & ->). auto.
              ** intros x q X. rewrite ED in X. cbn in X. unfold cset in X. destruct (Nat.eqb_spec x b); [discriminate|].
                 destruct (small_pos _ _ _ _ _ R SO X) as (j' & Hj' & Kj'). assert (j' = j) by lia. subst j'. congruence.
              ** apply (nr_keys _ _ _ R). left. auto.
              ** exists m', v0. split; auto. destruct (store _ _ _) as [m3| |]; cbn [bind] in EX |- *; auto.
           ++ assert (E2n : n_num (c_node c) = 2).
              { pose proof (nr_occ _ _ _ R (proj2 (Nat.eqb_neq _ _) Hr)) as O. rewrite EL in O. cbn [nleaf] in O. lia. }
              rewrite E2n. cbn [Nat.eqb]. rewrite (idx_in _ 0 0) by (rewrite (so_klen _ SO), ET; cbn; lia). cbn [bind].
              assert (GO : forall i, i < 2 -> nth i (n_keys (c_node c)) 0 <> b ->
                 exists m', (' (m3, ok) <- compressChild (lock2 m parent pc curr c) curr i (LSlot parent slot1) ;;
                    finish_remove m3 ok curr parent) = Ok (m', true) /\ del_post m' A key).
              { intros i Hi Hne. destruct (small_child _ _ _ i R SO ltac:(lia)) as (p & Hp).
                apply (compress_exit m r A parent pc curr c a ap b1 slot1 pos1 i (nth i (n_keys (c_node c)) 0) p key); auto; try lia.
                - rewrite ED. cbn. now rewrite cset_ne.
                - intros x Hx. rewrite ED. cbn. unfold cset. destruct (Nat.eqb_spec x b); auto.
                  destruct (aCh a x) as [q|] eqn:Eq; auto. exfalso.
                  destruct (small_pos _ _ _ _ _ R SO Eq) as (j' & Hj' & Kj'). 
                  assert (j' <> j) by congruence. assert (i <> j) by congruence. assert (i = j') by lia. congruence.
                - now rewrite ED. }
              destruct (Nat.eqb_spec (nth 0 (n_keys (c_node c)) 0) b) as [E0|E0].
              ** destruct (GO 1) as (m' & EX & PO); [lia| |].
                 { intros E1. pose proof (so_inj _ SO 0 1 ltac:(lia) ltac:(lia) ltac:(congruence)). lia. }
                 exists m', v0. auto.
              ** destruct (GO 0) as (m' & EX & PO); [lia|auto|]. exists m', v0. auto.
        -- assert (T4 : n_type (c_node c) <> Node4) by congruence.
           destruct (rep_shrink _ _ _ R b _ ltac:(congruence) T4 ESH) as (nn & EG & R'). unfold shrink_any in EG. rewrite ET in EG.
           rewrite EG. cbn [bind].
           assert (ET' : forall l, (' (m3, ok) <- (let '(m1, na) := alloc (lock2 m parent pc curr c) nn in
               m2 <- store m1 l (PNode na) ;; Ok (m2, true)) ;; finish_remove m3 ok curr parent) =
             (m6 <- move_tail (lock2 m parent pc curr c) nn l curr parent ;; Ok (m6, true))).
           { intros l. unfold move_tail. destruct (alloc _ nn) as (m3, na). destruct (store m3 l (PNode na)) as [m4| |]; auto. cbn [bind].
             unfold finish_remove. destruct (unlockObsolete m4 curr) as [m5| |]; reflexivity. }
           rewrite ET'. pose proof (hrep_fresh _ _ _ H) as Hx.
           destruct (Nat.eq_dec curr r) as [Er|Hr].
           ++ rewrite Er in *. destruct (loc_ok_root _ _ _ _ _ H Hloc) as (-> & ->). rewrite Nat.eqb_refl in R'.
              destruct (del_moved_root A r I (mlen m) a key Ha Hx HP HE) as (I' & P'). rewrite ED in I', P'.
              destruct (move_root m r A pc c a nn _ H Ha Hc Hpc R' I') as (m' & EX & H').
              rewrite EX. cbn [bind]. exists m', v0. split; auto. split; auto. eexists _, _. split; [exact H'|exact P'].
           ++ destruct (loc_ok_inner m r A parent nodeLoc curr H Hloc Hr) as (ap & b1 & slot1 & pos1 & cp & Hap & Hb1 & -> & Hcp & Hs1 & _).
              assert (cp = pc) by congruence. subst cp. rewrite (proj2 (Nat.eqb_neq _ _) Hr) in R'.
              destruct (del_moved r A I parent b1 curr (mlen m) ap a key Hap Hb1 Ha Hx HP HE) as (I' & P'). rewrite ED in I', P'.
              destruct (move_inner m r A parent pc curr c a nn _ ap b1 slot1 pos1 H Ha Hc Hpc Hr Hap Hb1 Hs1 R' I') as (m' & EX & H').
              rewrite EX. cbn [bind]. exists m', v0. split; auto. split; auto. eexists _, _. split; [exact H'|exact P'].
        -- assert (T4 : n_type (c_node c) <> Node4) by congruence.
           destruct (rep_shrink _ _ _ R b _ ltac:(congruence) T4 ESH) as (nn & EG & R'). unfold shrink_any in EG. rewrite ET in EG.
           rewrite EG. cbn [bind].
           assert (ET' : forall l, (' (m3, ok) <- (let '(m1, na) := alloc (lock2 m parent pc curr c) nn in
               m2 <- store m1 l (PNode na) ;; Ok (m2, true)) ;; finish_remove m3 ok curr parent) =
             (m6 <- move_tail (lock2 m parent pc curr c) nn l curr parent ;; Ok (m6, true))).
           { intros l. unfold move_tail. destruct (alloc _ nn) as (m3, na). destruct (store m3 l (PNode na)) as [m4| |]; auto. cbn [bind].
             unfold finish_remove. destruct (unlockObsolete m4 curr) as [m5| |]; reflexivity. }
           rewrite ET'. pose proof (hrep_fresh _ _ _ H) as Hx.
           destruct (Nat.eq_dec curr r) as [Er|Hr].
           ++ rewrite Er in *. destruct (loc_ok_root _ _ _ _ _ H Hloc) as (-> & ->). rewrite Nat.eqb_refl in R'.
              destruct (del_moved_root A r I (mlen m) a key Ha Hx HP HE) as (I' & P'). rewrite ED in I', P'.
              destruct (move_root m r A pc c a nn _ H Ha Hc Hpc R' I') as (m' & EX & H').
              rewrite EX. cbn [bind]. exists m', v0. split; auto. split; auto. eexists _, _. split; [exact H'|exact P'].
           ++ destruct (loc_ok_inner m r A parent nodeLoc curr H Hloc Hr) as (ap & b1 & slot1 & pos1 & cp & Hap & Hb1 & -> & Hcp & Hs1 & _).
              assert (cp = pc) by congruence. subst cp. rewrite (proj2 (Nat.eqb_neq _ _) Hr) in R'.
              destruct (del_moved r A I parent b1 curr (mlen m) ap a key Hap Hb1 Ha Hx HP HE) as (I' & P'). rewrite ED in I', P'.
              destruct (move_inner m r A parent pc curr c a nn _ ap b1 slot1 pos1 H Ha Hc Hpc Hr Hap Hb1 Hs1 R' I') as (m' & EX & H').
              rewrite EX. cbn [bind]. exists m', v0. split; auto. split; auto. eexists _, _. split; [exact H'|exact P'].
        -- assert (T4 : n_type (c_node c) <> Node4) by congruence.
           destruct (rep_shrink _ _ _ R b _ ltac:(congruence) T4 ESH) as (nn & EG & R'). unfold shrink_any in EG. rewrite ET in EG.
           rewrite EG. cbn [bind].
           assert (ET' : forall l, (' (m3, ok) <- (let '(m1, na) := alloc (lock2 m parent pc curr c) nn in
               m2 <- store m1 l (PNode na) ;; Ok (m2, true)) ;; finish_remove m3 ok curr parent) =
             (m6 <- move_tail (lock2 m parent pc curr c) nn l curr parent ;; Ok (m6, true))).
           { intros l. unfold move_tail. destruct (alloc _ nn) as (m3, na). destruct (store m3 l (PNode na)) as [m4| |]; auto. cbn [bind].
             unfold finish_remove. destruct (unlockObsolete m4 curr) as [m5| |]; reflexivity. }
           rewrite ET'. pose proof (hrep_fresh _ _ _ H) as Hx.
           destruct (Nat.eq_dec curr r) as [Er|Hr].
           ++ rewrite Er in *. destruct (loc_ok_root _ _ _ _ _ H Hloc) as (-> & ->). rewrite Nat.eqb_refl in R'.
              destruct (del_moved_root A r I (mlen m) a key Ha Hx HP HE) as (I' & P'). rewrite ED in I', P'.
              destruct (move_root m r A pc c a nn _ H Ha Hc Hpc R' I') as (m' & EX & H').
              rewrite EX. cbn [bind]. exists m', v0. split; auto. split; auto. eexists _, _. split; [exact H'|exact P'].
           ++ destruct (loc_ok_inner m r A parent nodeLoc curr H Hloc Hr) as (ap & b1 & slot1 & pos1 & cp & Hap & Hb1 & -> & Hcp & Hs1 & _).
              assert (cp = pc) by congruence. subst cp. rewrite (proj2 (Nat.eqb_neq _ _) Hr) in R'.
              destruct (del_moved r A I parent b1 curr (mlen m) ap a key Hap Hb1 Ha Hx HP HE) as (I' & P'). rewrite ED in I', P'.
              destruct (move_inner m r A parent pc curr c a nn _ ap b1 slot1 pos1 H Ha Hc Hpc Hr Hap Hb1 Hs1 R' I') as (m' & EX & H').
              rewrite EX. cbn [bind]. exists m', v0. split; auto. split; auto. eexists _, _. split; [exact H'|exact P'].
        -- pose proof (nr_layout _ _ _ R) as (_ & _ & L). rewrite ET in L. contradiction.
      * rewrite (upgrade_ok m curr c Hc). cbn [bind negb]. fold (lock1 m curr c).
        destruct (rep_remove _ _ _ R b slot pos (n_type (c_node pc)) ltac:(congruence) Hsl ESH) as (nn & EG & R').
        { intros Hroot. apply Nat.eqb_neq in Hroot. destruct HT as [(E & _)|(_ & HT)]; [contradiction|auto]. }
        rewrite EG. cbn [bind].
        destruct (t_del r A I curr a key Ha HP HE) as (I' & P'). rewrite ED in I', P'.
        destruct (inplace m r A curr a c nn _ H Ha Hc R' I') as (m' & EX & H').
        destruct (put_node _ _ _) as [m3| |]; cbn [bind] in EX |- *; try discriminate.
        rewrite EX. cbn [bind]. exists m', v0. split; auto. split; auto. eexists _, _. split; [exact H'|exact P'].
    + destruct (ai_node r A I _ _ _ _ Ha Ech) as (am & Hm & PM & LM).
      destruct (h_node _ _ _ H _ _ Hm) as (cm & Hcm & _).
      apply (IH (length (aW a) + 1) curr c (LSlot curr slot) m0 am cm); auto; try lia.
      * eapply cp_step; [exact HCP|exact Ha|exact PA|]. apply anext_Some. eauto.
      * right. exists a, b, slot, pos, c. specialize (Hsl ltac:(congruence)). auto.
    + assert (HN : anext A key curr = None) by (unfold anext; rewrite Ha, Eb, Ech; reflexivity).
      right; left. split; auto. split; [|exists curr, a; eauto 10].
      intros v. rewrite (contents_at r A I key curr a v HA HN Ha), LH. discriminate.
Qed.

(** Delete of a present key returns; otherwise it either returns at once with nothing changed or retries for ever. *)
Theorem Delete_spec m r A key : hrep m r A -> bytes_ok key ->
  (exists m' v, contents A key v /\ del_post m' A key /\ exists N, forall fuel, N <= fuel -> Delete fuel m key = Ok m') \/
  (absent A key /\ ends_open r A key /\ exists N, forall fuel, N <= fuel -> Delete fuel m key = Ok m) \/
  (absent A key /\ ends_leaf r A key /\ forall fuel, Delete fuel m key = Hang).
Proof.
  intros H HK.
  destruct (h_dummy _ _ _ H) as (d & Hd & Ud & _).
  destruct (root_start r A (h_inv _ _ _ H)) as (a & Ha & Hz & EW & EPL).
  destruct (h_node _ _ _ H _ _ Ha) as (c & Hc & _).
  assert (G : forall fuel, length key + 1 <= fuel -> _) by
    (intros fuel Hf; refine (remove_spec m r A key H HK fuel 0 0 d LRoot r a c (cp_root r A key) Ha Hc Hd _ _ _ _);
     [left; auto|lia|lia|lia]).
  destruct (G (length key + 1)) as [(m' & v & E & HC & PO)|[(E & AB & EO)|(E & AB & EL)]]; auto.
  - left. exists m', v. split; auto. split; auto. exists (length key + 1). intros fuel Hf.
    unfold Delete. destruct fuel as [|f]; [lia|]. cbn [Delete_loop]. rewrite (h_root _ _ _ H), (waitUnlock_ok m 0 d Hd Ud). cbn [bind].
    rewrite (leR_Ok _ _ _ (remove_mono _ _ _ _ _ _ _ _ _ Hf) E). reflexivity.
  - right; left. split; auto. split; auto. exists (length key + 1). intros fuel Hf.
    unfold Delete. destruct fuel as [|f]; [lia|]. cbn [Delete_loop]. rewrite (h_root _ _ _ H), (waitUnlock_ok m 0 d Hd Ud). cbn [bind].
    rewrite (leR_Ok _ _ _ (remove_mono _ _ _ _ _ _ _ _ _ Hf) E). reflexivity.
  - right; right. split; auto. split; auto. intros fuel.
    assert (E' : forall f, remove f m key 0 0 (c_ver d) LRoot r = Hang \/ remove f m key 0 0 (c_ver d) LRoot r = Ok (m, false)).
    { intros f. destruct (Nat.le_ge_cases (length key + 1) f) as [L|L].
      - right. exact (leR_Ok _ _ _ (remove_mono _ _ _ _ _ _ _ _ _ L) E).
      - destruct (remove_mono f (length key + 1) m key 0 0 (c_ver d) LRoot r L) as [X|X]; rewrite X; auto. }
    unfold Delete. generalize fuel at 2. induction fuel0 as [|n IH]; [reflexivity|].
    cbn [Delete_loop]. rewrite (h_root _ _ _ H), (waitUnlock_ok m 0 d Hd Ud). cbn [bind].
    destruct (E' fuel) as [X|X]; rewrite X; auto.
Qed.
