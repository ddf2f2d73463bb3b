(** * ArtSeq: the heap represents an abstract tree; Get is exact. *)
From Verif Require Import Base BitsModel BitsFacts VecModel VecProofs VecProofs2 ArtNode
  ArtNodeProofs ArtNodeProofs2 ArtNodeProofs3 ArtModel ArtTree ArtTree2 ArtRep ArtRep2.
Ltac Zify.zify_post_hook ::= Z.div_mod_to_equations.

(** ** The local answer at the end of a descent *)
Definition alookup (a : anode) (key : bytes) : option bytes :=
  match nth_error key (length (aW a)) with
  | None => if beqb (aW a) key then aLeaf a else None
  | Some b => match aCh a b with
              | Some (AL k v) => if beqb k key then Some v else None
              | _ => None end
  end.

Lemma local_holds r A (I : AInv r A) t a key v : A t = Some a -> length (aW a) <= length key ->
  (holds a key v <-> alookup a key = Some v).
Proof.
  intros Ht HL. unfold alookup. destruct (nth_error key (length (aW a))) as [b|] eqn:Eb.
  - split.
    + intros [[-> _]|[b' Hb']].
      * rewrite (proj2 (nth_error_None (aW a) (length (aW a)))) in Eb by lia. discriminate.
      * pose proof (ai_leaf r A I _ _ _ _ _ Ht Hb') as P. apply is_prefix_snoc in P as (_ & P).
        assert (b' = b) by congruence. subst b'. rewrite Hb', beqb_refl. reflexivity.
    + destruct (aCh a b) as [[k v'|m]|] eqn:Ec; try discriminate.
      destruct (beqb k key) eqn:E; [|discriminate]. apply beqb_eq in E. subst k.
      intros H; inversion H; subst. right. eauto.
  - apply nth_error_None in Eb. split.
    + intros [[-> H]|[b' Hb']].
      * now rewrite beqb_refl.
      * pose proof (ai_leaf r A I _ _ _ _ _ Ht Hb') as P. apply is_prefix_length in P.
        rewrite app_length in P. cbn in P. lia.
    + destruct (beqb (aW a) key) eqn:E; [|discriminate]. apply beqb_eq in E. subst key. intros H. left. auto.
Qed.

(** ** Memory *)
Definition cell_at (m : mem) (a : nat) : option cell := nth_error (m_cells m) a.
Definition mlen (m : mem) : nat := length (m_cells m).
Definition upd_cell (m : mem) (a : nat) (c : cell) : mem := mkMem (set_nth (m_cells m) a c) (m_root m).

Lemma cell_lt m a c : cell_at m a = Some c -> a < mlen m.
Proof. intros H. apply nth_error_Some. unfold cell_at in H. congruence. Qed.

Lemma get_node_ok m a c : cell_at m a = Some c -> get_node m a = Ok (c_node c).
Proof. intros H. unfold get_node. now rewrite (idx_Some _ _ _ H). Qed.
Lemma get_ver_ok m a c : cell_at m a = Some c -> get_ver m a = Ok (c_ver c).
Proof. intros H. unfold get_ver. now rewrite (idx_Some _ _ _ H). Qed.
Lemma put_node_ok m a c n : cell_at m a = Some c -> put_node m a n = Ok (upd_cell m a (mkCell (c_ver c) n)).
Proof. intros H. unfold put_node. now rewrite (idx_Some _ _ _ H). Qed.
Lemma put_ver_ok m a c v : cell_at m a = Some c -> put_ver m a v = Ok (upd_cell m a (mkCell v (c_node c))).
Proof. intros H. unfold put_ver. now rewrite (idx_Some _ _ _ H). Qed.

Lemma mlen_upd m a c : mlen (upd_cell m a c) = mlen m.
Proof. apply set_nth_length. Qed.
Lemma cell_upd m a c i : a < mlen m -> cell_at (upd_cell m a c) i = if Nat.eqb a i then Some c else cell_at m i.
Proof.
  intros H. unfold cell_at, upd_cell. cbn [m_cells]. rewrite nth_error_set_nth.
  replace (Nat.ltb a (length (m_cells m))) with true by (symmetry; apply Nat.ltb_lt; exact H). reflexivity.
Qed.
Lemma mlen_alloc m n : mlen (fst (alloc m n)) = S (mlen m).
Proof. unfold mlen, alloc. cbn [fst m_cells]. rewrite app_length. cbn. lia. Qed.
Lemma cell_alloc m n i : cell_at (fst (alloc m n)) i = if Nat.eqb (mlen m) i then Some (mkCell 0 n) else cell_at m i.
Proof.
  unfold cell_at, alloc. cbn [fst m_cells]. destruct (Nat.eqb_spec (mlen m) i) as [<-|Hne].
  - rewrite nth_error_app2 by (unfold mlen; lia). unfold mlen. now rewrite Nat.sub_diag.
  - destruct (Nat.lt_ge_cases i (mlen m)).
    + now rewrite nth_error_app1 by auto.
    + rewrite (proj2 (nth_error_None (m_cells m) i)) by auto. apply nth_error_None. rewrite app_length. cbn. unfold mlen in *. lia.
Qed.

(** ** Versions *)
Definition unl (v : N) : Prop := (v mod 4 = 0)%N.

Lemma unl_bits v : unl v -> N.testbit v 1 = false /\ N.testbit v 0 = false.
Proof.
  unfold unl. intros H. change 4%N with (2 ^ 2)%N in H. split.
  - rewrite <- (N.mod_pow2_bits_low v 2 1) by lia. rewrite H. apply N.bits_0.
  - rewrite <- (N.mod_pow2_bits_low v 2 0) by lia. rewrite H. apply N.bits_0.
Qed.

Lemma w64_mod4 v : ((w64 v) mod 4 = v mod 4)%N.
Proof.
  unfold w64, two64. change (2 ^ 64)%N with (4 * 2 ^ 62)%N. rewrite N.mod_mul_r by (try discriminate; lia).
  rewrite N.mul_comm, N.mod_add by discriminate. now rewrite N.mod_mod by discriminate.
Qed.

Lemma unl_relock v : unl v -> unl (w64 (w64 (v + 2) + 2)).
Proof.
  unfold unl. intros H. rewrite w64_mod4. rewrite <- N.add_mod_idemp_l, w64_mod4 by discriminate.
  rewrite <- (N.add_mod_idemp_l v), H by discriminate. reflexivity.
Qed.

Lemma rLock_ok m a c : cell_at m a = Some c -> unl (c_ver c) -> rLock m a = Ok (c_ver c, true).
Proof.
  intros H U. apply unl_bits in U as (U1 & U0). unfold rLock, waitUnlock. rewrite (get_ver_ok m a c H). cbn [bind].
  rewrite U1. cbn [bind]. now rewrite U0.
Qed.
Lemma waitUnlock_ok m a c : cell_at m a = Some c -> unl (c_ver c) -> waitUnlock m a = Ok (c_ver c).
Proof.
  intros H U. apply unl_bits in U as (U1 & U0). unfold waitUnlock. rewrite (get_ver_ok m a c H). cbn [bind]. now rewrite U1.
Qed.
Lemma rUnlock_ok m a c : cell_at m a = Some c -> rUnlock m a (c_ver c) = Ok true.
Proof. intros H. unfold rUnlock. rewrite (get_ver_ok m a c H). cbn [bind]. now rewrite N.eqb_refl. Qed.
Lemma upgrade_ok m a c : cell_at m a = Some c ->
  upgradeToLock m a (c_ver c) = Ok (upd_cell m a (mkCell (w64 (c_ver c + 2)) (c_node c)), true).
Proof.
  intros H. unfold upgradeToLock. rewrite (get_ver_ok m a c H). cbn [bind]. rewrite N.eqb_refl.
  rewrite (put_ver_ok m a c _ H). reflexivity.
Qed.
Lemma upgrade_with_ok m a c l : cell_at m a = Some c ->
  upgradeToLockWithNode m a (c_ver c) l = Ok (upd_cell m a (mkCell (w64 (c_ver c + 2)) (c_node c)), true).
Proof. intros H. unfold upgradeToLockWithNode. rewrite (upgrade_ok m a c H). reflexivity. Qed.
Lemma rUnlock_with_ok m a c l : cell_at m a = Some c -> rUnlockWithNode m a (c_ver c) l = Ok (m, true).
Proof. intros H. unfold rUnlockWithNode. rewrite (get_ver_ok m a c H). cbn [bind]. now rewrite N.eqb_refl. Qed.
Lemma unlock_ok m a c : cell_at m a = Some c ->
  unlock m a = Ok (upd_cell m a (mkCell (w64 (c_ver c + 2)) (c_node c))).
Proof. intros H. unfold unlock. rewrite (get_ver_ok m a c H). cbn [bind]. apply put_ver_ok; auto. Qed.
Lemma unlockObsolete_ok m a c : cell_at m a = Some c ->
  unlockObsolete m a = Ok (upd_cell m a (mkCell (w64 (c_ver c + 3)) (c_node c))).
Proof. intros H. unfold unlockObsolete. rewrite (get_ver_ok m a c H). cbn [bind]. apply put_ver_ok; auto. Qed.

(** ** Representation *)
Record hrep (m : mem) (r : nat) (A : aheap) : Prop := {
  h_root : m_root m = PNode r;
  h_inv : AInv r A;
  h_dummy : exists c, cell_at m 0 = Some c /\ unl (c_ver c) /\ n_type (c_node c) = Dummy;
  h_zero : A 0 = None;
  h_node : forall n a, A n = Some a ->
    exists c, cell_at m n = Some c /\ unl (c_ver c) /\ nrep (Nat.eqb n r) (c_node c) a
}.

Lemma hrep_fresh m r A : hrep m r A -> A (mlen m) = None.
Proof.
  intros H. destruct (A (mlen m)) as [a|] eqn:E; auto. exfalso.
  destruct (h_node _ _ _ H _ _ E) as (c & Hc & _). apply cell_lt in Hc. lia.
Qed.

Lemma hrep_New : hrep New 1 (aset (fun _ => None) 1 (Some (mkA [] 0 None cnone))).
Proof.
  constructor.
  - reflexivity.
  - constructor.
    + eexists. rewrite aset_eq. eauto.
    + intros n a b k v. unfold aset. destruct (Nat.eqb n 1); [|discriminate]. intros E; inversion E; subst. discriminate.
    + intros n a b k. unfold aset. destruct (Nat.eqb n 1); [|discriminate]. intros E; inversion E; subst. discriminate.
    + intros n a. unfold aset. destruct (Nat.eqb_spec n 1); [congruence|discriminate].
  - eexists. split; [reflexivity|]. split; reflexivity.
  - reflexivity.
  - intros n a. unfold aset. destruct (Nat.eqb_spec n 1) as [->|]; [|discriminate]. intros E; inversion E; subst.
    eexists. split; [reflexivity|]. split; [reflexivity|]. cbn [c_node Nat.eqb]. apply nrep_new. constructor.
Qed.

Lemma contents_New k v : ~ contents (aset (fun _ => None) 1 (Some (mkA [] 0 None cnone))) k v.
Proof.
  intros (n & a & Hn & Hh). unfold aset in Hn. destruct (Nat.eqb n 1); [|discriminate]. inversion Hn; subst.
  destruct Hh as [[_ H]|[b H]]; discriminate.
Qed.

(** ** Get *)
Lemma root_depth r A (I : AInv r A) n a b m am : A n = Some a -> aCh a b = Some (AN m) -> A m = Some am ->
  length (aW am) - aPL am = length (aW a) + 1.
Proof.
  intros Hn Hb Hm. destruct (ai_node r A I _ _ _ _ Hn Hb) as (am' & Hm' & _ & L).
  assert (am' = am) by congruence. subst. lia.
Qed.

Lemma search_spec m r A key : hrep m r A -> bytes_ok key ->
  forall fuel depth parent pc curr a, apath r A key curr -> A curr = Some a ->
  depth = length (aW a) - aPL a -> depth <= length key -> length key + 1 - depth <= fuel ->
  cell_at m parent = Some pc ->
  exists o, search fuel m key depth parent (c_ver pc) curr = Ok (o, true) /\
    (forall v, o = Some v <-> contents A key v).
Proof.
  intros H HK. pose proof (h_inv _ _ _ H) as I.
  induction fuel as [|fuel IH]; intros depth parent pc curr a HA Ha Hd Hdk Hf Hpc; [lia|].
  cbn [search]. destruct (h_node _ _ _ H _ _ Ha) as (c & Hc & Hu & R).
  rewrite (rLock_ok m curr c Hc Hu). cbn [bind negb]. rewrite (rUnlock_ok m parent pc Hpc). cbn [bind negb].
  rewrite (get_node_ok m curr c Hc). cbn [bind].
  destruct (check_spec _ _ _ R key depth Hd Hdk) as (d & b & Ec & Ht & Hff). rewrite Ec. cbn [bind].
  destruct b; cbn [negb].
  2: { rewrite (rUnlock_ok m curr c Hc). cbn [bind]. exists None. split; auto. intros v. split; [discriminate|].
       intros HC. exfalso. apply (Hff eq_refl). eapply (contents_path_prefix r A I); eauto. }
  destruct (Ht eq_refl) as (-> & HW). clear Ht Hff Ec.
  assert (LH : forall v, holds a key v <-> alookup a key = Some v) by (intros; eapply (local_holds r A I); eauto).
  destruct (Nat.eqb_spec (length (aW a)) (length key)) as [El|El].
  - cbn [bind]. rewrite (rUnlock_ok m curr c Hc). cbn [bind negb]. rewrite (nr_pleaf _ _ _ R).
    assert (EN : nth_error key (length (aW a)) = None) by (apply nth_error_None; lia).
    assert (HN : anext A key curr = None) by (unfold anext; rewrite Ha, EN; reflexivity).
    unfold alookup in LH. rewrite EN in LH.
    destruct (aLeaf a) as [v0|] eqn:EL; cbn [option_map].
    + destruct (nr_keys _ _ _ R (aW a) v0) as (F1 & F2 & _); [left; auto|].
      rewrite leaf_match_newLeaf by auto. cbn [bind]. destruct (beqb (aW a) key) eqn:EB.
      * rewrite leaf_value_newLeaf by auto. cbn [bind]. eexists. split; [reflexivity|]. intros v.
        rewrite (contents_at r A I key curr a v HA HN Ha). now rewrite LH.
      * eexists. split; [reflexivity|]. intros v. rewrite (contents_at r A I key curr a v HA HN Ha). now rewrite LH.
    + eexists. split; [reflexivity|]. intros v. rewrite (contents_at r A I key curr a v HA HN Ha), LH.
      destruct (beqb (aW a) key); tauto.
  - replace (Nat.ltb (length (aW a)) (length key)) with true by (symmetry; apply Nat.ltb_lt; lia).
    destruct (nth_error key (length (aW a))) as [b|] eqn:Eb. 2: { apply nth_error_None in Eb. lia. }
    rewrite (idx_Some _ _ _ Eb). cbn [bind].
    destruct (find_rep _ _ _ R b) as (slot & pos & Ef & _); [eapply bytes_ok_nth; eauto|].
    rewrite Ef. cbn [bind]. rewrite (rUnlock_ok m curr c Hc). cbn [bind negb].
    unfold alookup in LH. rewrite Eb in LH.
    destruct (aCh a b) as [[k' v'|m']|] eqn:Ech; cbn [option_map conv].
    + assert (HN : anext A key curr = None) by (unfold anext; rewrite Ha, Eb, Ech; reflexivity).
      destruct (nr_keys _ _ _ R k' v') as (F1 & F2 & _); [right; eauto|].
      rewrite leaf_match_newLeaf by auto. cbn [bind]. destruct (beqb k' key) eqn:EB.
      * rewrite leaf_value_newLeaf by auto. cbn [bind]. eexists. split; [reflexivity|]. intros v.
        rewrite (contents_at r A I key curr a v HA HN Ha). now rewrite LH.
      * eexists. split; [reflexivity|]. intros v. rewrite (contents_at r A I key curr a v HA HN Ha). now rewrite LH.
    + destruct (ai_node r A I _ _ _ _ Ha Ech) as (am & Hm & PM & LM).
      apply (IH (length (aW a) + 1) curr c m' am); auto; try lia.
      eapply apath_step; [exact HA|]. apply anext_Some. eauto.
    + assert (HN : anext A key curr = None) by (unfold anext; rewrite Ha, Eb, Ech; reflexivity).
      eexists. split; [reflexivity|]. intros v. rewrite (contents_at r A I key curr a v HA HN Ha). now rewrite LH.
Qed.

Lemma root_start r A (I : AInv r A) : exists a, A r = Some a /\ length (aW a) - aPL a = 0 /\ aW a = [] /\ aPL a = 0.
Proof. destruct (ai_root r A I) as (a & H & E1 & E2). exists a. rewrite E1, E2. auto. Qed.

Lemma Get_spec m r A key fuel : hrep m r A -> bytes_ok key -> length key + 1 <= fuel ->
  exists o, Get fuel m key = Ok o /\ (forall v, o = Some v <-> contents A key v).
Proof.
  intros H HK Hf. unfold Get. destruct fuel as [|f]; [lia|]. cbn [Get_loop].
  rewrite (h_root _ _ _ H). destruct (h_dummy _ _ _ H) as (d & Hd & Ud & _).
  rewrite (waitUnlock_ok m 0 d Hd Ud). cbn [bind].
  destruct (root_start r A (h_inv _ _ _ H)) as (a & Ha & Hz & _).
  destruct (search_spec m r A key H HK (S f) 0 0 d r a) as (o & E & HO); auto; try lia.
  { apply apath_root. }
  rewrite E. cbn [bind]. eauto.
Qed.
