(** * ArtConcHeap: the critical sections change the tree exactly as the operation asks,
    and leave every node they do not hold alone. *)
From Verif Require Import Base BitsModel BitsFacts VecModel VecProofs VecProofs2 ArtNode
  ArtNodeProofs ArtNodeProofs2 ArtNodeProofs3 ArtModel ArtSpec ArtTree ArtTree2 ArtRep ArtRep2
  ArtTree3 ArtSeq ArtMono ArtSeq2 ArtSeq3 ArtConc.
Ltac Zify.zify_post_hook ::= Z.div_mod_to_equations.

(** The heap holds the tree [A] with root [r], whatever the version words. *)
Record crep (m : mem) (r : nat) (A : aheap) : Prop := {
  k_root : m_root m = PNode r;
  k_inv : AInv r A;
  k_zero : A 0 = None;
  k_type : forall n c, cell_at m n = Some c -> (n_type (c_node c) = Dummy <-> n = 0);
  k_dummy : exists c, cell_at m 0 = Some c;
  k_node : forall n a, A n = Some a -> exists c, cell_at m n = Some c /\ nrep (Nat.eqb n r) (c_node c) a
}.

Lemma k_fresh m r A : crep m r A -> A (mlen m) = None.
Proof.
  intros H. destruct (A (mlen m)) as [a|] eqn:E; auto. exfalso.
  destruct (k_node _ _ _ H _ _ E) as (c & Hc & _). apply cell_lt in Hc. lia.
Qed.
Lemma k_live_cell m r A n a c : crep m r A -> A n = Some a -> cell_at m n = Some c -> nrep (Nat.eqb n r) (c_node c) a.
Proof. intros H Ha Hc. destruct (k_node _ _ _ H _ _ Ha) as (c' & Hc' & R). congruence. Qed.
Lemma k_live0 m r A n a : crep m r A -> A n = Some a -> n <> 0.
Proof. intros H Ha ->. rewrite (k_zero _ _ _ H) in Ha. discriminate. Qed.
Lemma k_fresh_root m r A : crep m r A -> mlen m <> r.
Proof. intros H E. pose proof (k_fresh _ _ _ H) as F. destruct (ai_root r A (k_inv _ _ _ H)) as (a & Ha & _). congruence. Qed.
Lemma k_lt m r A n a : crep m r A -> A n = Some a -> n < mlen m.
Proof. intros H Ha. destruct (k_node _ _ _ H _ _ Ha) as (c & Hc & _). eapply cell_lt; eauto. Qed.

(** What a change of the heap that touches only the nodes [H], and takes only the nodes
    [D] out of the tree, preserves. *)
Record fr (H D : list nat) (m : mem) (r : nat) (A : aheap) (m' : mem) (r' : nat) (A' : aheap) : Prop := {
  fr_cell : forall n c, cell_at m n = Some c ->
    exists c', cell_at m' n = Some c' /\ c_ver c' = c_ver c /\ n_type (c_node c') = n_type (c_node c);
  fr_same : forall n, n < mlen m -> ~ In n H -> cell_at m' n = cell_at m n /\ A' n = A n;
  fr_new : forall n c, mlen m <= n -> cell_at m' n = Some c -> c_ver c = 0%N /\ A' n <> None;
  fr_W : forall n a a', A n = Some a -> A' n = Some a' -> aW a' = aW a;
  fr_dead : forall n, n < mlen m -> A n = None -> A' n = None;
  fr_gone : forall n a, A n = Some a -> (A' n = None <-> In n D);
  fr_root : r' = r \/ (A' r = None /\ mlen m <= r')
}.

Definition effect (o : op) (A A' : aheap) : Prop :=
  match o with OPut k v => putted A A' k v | ODelete k => deleted A A' k | OGet _ => False end.

Definition post (H D : list nat) (m : mem) (r : nat) (A : aheap) (m' : mem) (o : op) : Prop :=
  exists r' A', crep m' r' A' /\ effect o A A' /\ fr H D m r A m' r' A'.

Lemma aset_dec A n x i : aset A n x i = if Nat.eqb i n then x else A i.
Proof. reflexivity. Qed.

(** ** Changing one node in place *)
Lemma c_inplace m r A curr a c nd' a' o : crep m r A -> A curr = Some a -> cell_at m curr = Some c ->
  nrep (Nat.eqb curr r) nd' a' -> n_type nd' = n_type (c_node c) -> aW a' = aW a ->
  AInv r (aset A curr (Some a')) -> effect o A (aset A curr (Some a')) ->
  exists m', put_node m curr nd' = Ok m' /\ post [curr] [] m r A m' o.
Proof.
  intros H Ha Hc R HT HW I' E. pose proof (cell_lt _ _ _ Hc) as Lc. pose proof (k_live0 _ _ _ _ _ H Ha) as Hc0.
  rewrite (put_node_ok m curr c nd' Hc). eexists. split; [reflexivity|].
  exists r, (aset A curr (Some a')). split; [|split; [exact E|]].
  - constructor; auto.
    + exact (k_root _ _ _ H).
    + rewrite aset_ne by auto. apply (k_zero _ _ _ H).
    + intros n c' Hn. rewrite cell_upd in Hn by auto. destruct (Nat.eqb_spec curr n) as [<-|].
      * inversion Hn; subst. cbn [c_node]. rewrite HT. apply (k_type _ _ _ H _ _ Hc).
      * apply (k_type _ _ _ H _ _ Hn).
    + destruct (k_dummy _ _ _ H) as (d & Hd). exists d. cellc. exact Hd.
    + intros n x. rewrite aset_dec, cell_upd, (Nat.eqb_sym curr n) by auto. destruct (Nat.eqb_spec n curr) as [->|].
      * intros X; inversion X; subst. eexists. split; [reflexivity|]. exact R.
      * apply (k_node _ _ _ H).
  - constructor.
    + intros n c' Hn. rewrite cell_upd by auto. destruct (Nat.eqb_spec curr n) as [<-|].
      * assert (c' = c) by congruence. subst. eexists. split; [reflexivity|]. auto.
      * eauto.
    + intros n Hn HI. rewrite cell_upd by auto. rewrite aset_dec, (Nat.eqb_sym n curr).
      destruct (Nat.eqb_spec curr n) as [<-|]; auto. exfalso. apply HI. left. auto.
    + intros n c' Hn Hc'. apply cell_lt in Hc'. rewrite mlen_upd in Hc'. lia.
    + intros n x x' Hx. rewrite aset_dec. destruct (Nat.eqb_spec n curr) as [->|]; [|congruence].
      intros X; inversion X; subst. congruence.
    + intros n Hn Hx. rewrite aset_dec. destruct (Nat.eqb_spec n curr) as [->|]; congruence.
    + intros n x Hx. rewrite aset_dec. destruct (Nat.eqb_spec n curr) as [->|]; cbn; split; try tauto; congruence.
    + auto.
Qed.

(** ** General assembly: [parent], [curr], [ch] and possibly one fresh node change. *)
Lemma c_assemble m r A (H D : list nat) m' r' A' o :
  crep m r A -> (forall n, In n H -> n < mlen m) -> mlen m <= mlen m' <= S (mlen m) ->
  m_root m' = PNode r' -> AInv r' A' -> effect o A A' ->
  (forall n, n < mlen m -> ~ In n H -> A' n = A n) -> A' 0 = None ->
  (forall n, n < mlen m -> ~ In n H -> cell_at m' n = cell_at m n) ->
  (forall n c, In n H -> cell_at m n = Some c ->
     exists c', cell_at m' n = Some c' /\ c_ver c' = c_ver c /\ n_type (c_node c') = n_type (c_node c) /\
       match A' n with
       | Some a' => nrep (Nat.eqb n r') (c_node c') a' /\ (exists a, A n = Some a /\ aW a' = aW a) /\ ~ In n D
       | None => In n D \/ n = 0
       end) ->
  (forall c, cell_at m' (mlen m) = Some c -> c_ver c = 0%N /\
     exists a, A' (mlen m) = Some a /\ nrep (Nat.eqb (mlen m) r') (c_node c) a) ->
  (forall a, A' (mlen m) = Some a -> mlen m' = S (mlen m)) -> (forall n, S (mlen m) <= n -> A' n = None) ->
  incl D H ->
  (r' = r \/ (A' r = None /\ r' = mlen m)) ->
  crep m' r' A' /\ effect o A A' /\ fr H D m r A m' r' A'.
Proof.
  intros K HH HL HR I' E HA HZ HM HC HN HN2 HF HD Hr.
  assert (DEC : forall n, In n H \/ ~ In n H) by (intros n; destruct (in_dec Nat.eq_dec n H); auto).
  assert (T : forall n c, cell_at m n = Some c ->
     exists c', cell_at m' n = Some c' /\ c_ver c' = c_ver c /\ n_type (c_node c') = n_type (c_node c)).
  { intros n c Hc. destruct (DEC n) as [G|G].
    - destruct (HC n c G Hc) as (c' & E1 & E2 & E3 & _). eauto.
    - exists c. rewrite HM by (auto; eapply cell_lt; eauto). auto. }
  assert (Hrr : forall n, n < mlen m -> A' n <> None -> Nat.eqb n r' = Nat.eqb n r).
  { intros n Hn Hx. destruct Hr as [->|(G1 & ->)]; auto.
    rewrite (proj2 (Nat.eqb_neq n (mlen m))) by lia. symmetry. apply Nat.eqb_neq. intros ->. auto. }
  split; [|split; [exact E|]].
  - constructor; auto.
    + intros n c' Hn. pose proof (cell_lt _ _ _ Hn) as L. destruct (Nat.lt_ge_cases n (mlen m)) as [G|G].
      * destruct (nth_error (m_cells m) n) as [c|] eqn:Ec. 2: { apply nth_error_None in Ec. unfold mlen in G. lia. }
        destruct (T n c Ec) as (c2 & E1 & E2 & E3). assert (c2 = c') by congruence. subst. rewrite E3.
        apply (k_type _ _ _ K _ _ Ec).
      * assert (n = mlen m) by lia. subst n. destruct (HN _ Hn) as (_ & a & _ & R).
        assert (mlen m <> 0). { destruct (k_dummy _ _ _ K) as (d & Hd). apply cell_lt in Hd. lia. }
        split; [|lia]. intros X. pose proof (nr_layout _ _ _ R) as (_ & _ & LO). rewrite X in LO. contradiction.
    + destruct (k_dummy _ _ _ K) as (d & Hd). destruct (T 0 d Hd) as (c' & E1 & _). eauto.
    + intros n a Hn. destruct (Nat.lt_ge_cases n (mlen m)) as [G|G].
      * destruct (nth_error (m_cells m) n) as [c|] eqn:Ec. 2: { apply nth_error_None in Ec. unfold mlen in G. lia. }
        destruct (DEC n) as [G2|G2].
        -- destruct (HC n c G2 Ec) as (c' & E1 & E2 & E3 & E4). rewrite Hn in E4. exists c'. split; auto. apply E4.
        -- rewrite HM, Hrr by (auto; congruence). rewrite HA in Hn by auto. apply (k_node _ _ _ K _ _ Hn).
      * destruct (Nat.eq_dec n (mlen m)) as [->|].
        -- specialize (HN2 _ Hn). destruct (nth_error (m_cells m') (mlen m)) as [c|] eqn:Ec.
           ++ destruct (HN _ Ec) as (_ & a' & Ha' & R). exists c. split; auto. congruence.
           ++ apply nth_error_None in Ec. unfold mlen in *. lia.
        -- rewrite HF in Hn by lia. discriminate.
  - constructor; auto.
    + intros n c Hn Hc. pose proof (cell_lt _ _ _ Hc). assert (n = mlen m) by lia. subst n.
      destruct (HN _ Hc) as (V & a & Ha & _). split; congruence.
    + intros n a a' Ha Ha'. destruct (DEC n) as [G|G].
      * destruct (k_node _ _ _ K _ _ Ha) as (c & Hc & _). destruct (HC n c G Hc) as (c9 & _ & _ & _ & E4).
        rewrite Ha' in E4. destruct E4 as (_ & (a2 & E5 & E6) & _). congruence.
      * rewrite HA in Ha' by (auto; eapply k_lt; eauto). congruence.
    + intros n Hn Hx. destruct (DEC n) as [G|G]; [|rewrite HA by auto; auto].
      destruct (nth_error (m_cells m) n) as [c|] eqn:Ec. 2: { apply nth_error_None in Ec. unfold mlen in Hn. lia. }
      destruct (HC n c G Ec) as (c9 & _ & _ & _ & E4). destruct (A' n); auto. destruct E4 as (_ & (a2 & E5 & _) & _). congruence.
    + intros n a Ha. destruct (DEC n) as [G|G].
      * destruct (k_node _ _ _ K _ _ Ha) as (c & Hc & _). destruct (HC n c G Hc) as (c9 & _ & _ & _ & E4).
        destruct (A' n); [split; [discriminate|tauto]|]. split; auto. intros _. destruct E4 as [|E4]; auto.
        exfalso. subst n. rewrite (k_zero _ _ _ K) in Ha. discriminate.
      * rewrite HA by (auto; eapply k_lt; eauto). split; [congruence|]. intros X. apply HD in X. contradiction.
    + destruct Hr as [|(G & ->)]; auto.
Qed.

Ltac in_cases := cbn [In] in *; repeat match goal with H : _ \/ _ |- _ => destruct H as [H|H] | H : False |- _ => contradiction end.
Ltac notin H := let X := fresh in pose proof H as X; cbn [In] in X; apply Decidable.not_or in X.

Lemma alloc_eq m nn : alloc m nn = (fst (alloc m nn), mlen m).
Proof. reflexivity. Qed.

Lemma root_false m r A n : crep m r A -> n <> r -> Nat.eqb n r = false.
Proof. intros _ H. now apply Nat.eqb_neq. Qed.

(** ** Splitting a prefix *)
Lemma c_split m r A curr a c key value depth p fk ap b slot pos parent pc :
  crep m r A -> A curr = Some a -> cell_at m curr = Some c -> cell_at m parent = Some pc ->
  curr <> r -> A parent = Some ap -> aCh ap b = Some (AN curr) -> slot_of (c_node pc) b slot pos ->
  depth = length (aW a) - aPL a -> p < aPL a ->
  is_prefix (firstn (depth + p) (aW a)) key ->
  nth_error key (depth + p) <> nth_error (aW a) (depth + p) ->
  (8 < aPL a -> is_prefix (aW a) fk) ->
  bytes_ok key -> fits32 (length key) -> fits32 (length value) ->
  exists m', (' (n', nn) <- insertSplitPrefix curr (c_node c) key fk value depth p ;;
              m1 <- put_node m curr n' ;; place m1 (LSlot parent slot) nn) = Ok m' /\
    post [curr; parent] [] m r A m' (OPut key value).
Proof.
  intros H Ha Hc Hpc Hr Hap Hb Hs Hd Hp HP Hne Hfk HK F1 F2. pose proof (k_inv _ _ _ H) as I.
  pose proof (k_live_cell _ _ _ _ _ _ H Ha Hc) as R. pose proof (k_live_cell _ _ _ _ _ _ H Hap Hpc) as Rp.
  rewrite (proj2 (Nat.eqb_neq curr r) Hr) in R.
  assert (Hpcur : parent <> curr) by exact (pm_neq r A I parent b curr ap Hap Hb).
  pose proof (cell_lt _ _ _ Hc) as Lc. pose proof (cell_lt _ _ _ Hpc) as Lp. pose proof (k_fresh _ _ _ H) as Hx.
  pose proof (k_live0 _ _ _ _ _ H Ha) as Hc0. pose proof (k_live0 _ _ _ _ _ H Hap) as Hp0.
  pose proof (k_fresh_root _ _ _ H) as Hxr.
  destruct (rep_set_child _ _ _ Rp b slot pos (AN (mlen m)) ltac:(congruence) Hs Logic.I) as (Hsl & Rp').
  destruct (split_spec curr (c_node c) a key fk value depth p R Hd Hp HP Hne Hfk F1 F2 HK) as (n' & nn & ES & R1 & HN & R2).
  assert (TN : n_type n' = n_type (c_node c)).
  { unfold insertSplitPrefix in ES. 
    repeat match type of ES with
    | (match ?e with Ok _ => _ | Panic => _ | Hang => _ end) = _ => destruct e as [[[? ?] ?]| |] eqn:?; try discriminate
    | bind ?e _ = _ => destruct e; cbn [bind] in ES; try discriminate
    | (let '(_, _) := ?e in _) = _ => destruct e
    end.
    apply Ok_inj in ES. now inversion ES. }
  rewrite ES. cbn [bind]. rewrite (put_node_ok m curr c n' Hc). cbn [bind]. unfold place.
  set (m1 := upd_cell m curr _). assert (L1 : mlen m1 = mlen m) by apply mlen_upd.
  rewrite alloc_eq, L1. set (m2 := fst (alloc m1 nn)).
  assert (C1 : cell_at m2 parent = Some pc) by (unfold m2, m1; cfact).
  rewrite (store_slot_ok m2 parent slot _ pc C1 Hsl). eexists. split; [reflexivity|].
  destruct (put_split r A I parent b curr (mlen m) ap a p key value Hap Hb Ha Hx Hp) as (I' & P').
  { unfold split_node. cbn [aW]. unfold split_d. rewrite <- Hd. exact HP. } { exact HN. }
  exists r, (split_put A parent b curr (mlen m) ap a p key value).
  assert (L2 : mlen m2 = S (mlen m)) by (unfold m2; rewrite mlen_alloc; lia).
  apply c_assemble; auto.
  - intros n [<-|[<-|[]]]; auto.
  - rewrite mlen_upd. lia.
  - exact (k_root _ _ _ H).
  - intros n N1 N2. cbn [In] in N2. unfold split_put. now rewrite !aset_ne by (intros ->; (lia || (apply N2; auto))).
  - unfold split_put. rewrite !aset_ne by (auto; lia). apply (k_zero _ _ _ H).
  - intros n N1 N2. cbn [In] in N2. rewrite cell_upd by lia. rewrite (proj2 (Nat.eqb_neq parent n)) by (intros ->; apply N2; auto).
    unfold m2. rewrite cell_alloc, L1, (proj2 (Nat.eqb_neq _ n)) by lia. unfold m1. rewrite cell_upd by lia.
    now rewrite (proj2 (Nat.eqb_neq curr n)) by (intros ->; apply N2; auto).
  - intros n cn [<-|[<-|[]]] Hn.
    + assert (cn = c) by congruence. subst cn. eexists. split; [unfold m2, m1; cellc; reflexivity|]. cbn [c_ver c_node]. split; auto. split; auto.
      unfold split_put. rewrite aset_ne, aset_eq by lia. split; [|cbn; eauto]. rewrite (proj2 (Nat.eqb_neq curr r) Hr). exact R1.
    + assert (cn = pc) by congruence. subst cn. eexists. split; [unfold m2, m1; cellc; reflexivity|]. cbn [c_ver c_node]. split; auto. split; auto.
      unfold split_put. rewrite !aset_ne, aset_eq by (auto; lia). split; [|cbn; eauto]. exact Rp'.
  - intros cx. unfold m2, m1. cellc. intros X; inversion X; subst cx. split; auto. eexists. split; [apply aset_eq|]. cbn [c_node].
    try rewrite (proj2 (Nat.eqb_neq _ _) Hxr). exact R2.
  - intros _ _. now rewrite mlen_upd.
  - intros n Hn. unfold split_put. rewrite !aset_ne by lia. destruct (A n) as [x|] eqn:E; auto. apply (k_lt _ _ _ _ _ H) in E. lia.
  - intros x [].
Qed.

(** ** Replacing [curr] by a fresh node *)
Lemma c_move_inner m r A parent pc curr c a nn a' ap b slot pos o :
  crep m r A -> A curr = Some a -> cell_at m curr = Some c -> cell_at m parent = Some pc ->
  curr <> r -> A parent = Some ap -> aCh ap b = Some (AN curr) -> slot_of (c_node pc) b slot pos ->
  nrep false nn a' -> AInv r (moved A parent b curr (mlen m) ap a') -> effect o A (moved A parent b curr (mlen m) ap a') ->
  exists m', place m (LSlot parent slot) nn = Ok m' /\ post [curr; parent] [curr] m r A m' o.
Proof.
  intros H Ha Hc Hpc Hr Hap Hb Hs R I' E. pose proof (k_inv _ _ _ H) as I.
  pose proof (k_live_cell _ _ _ _ _ _ H Hap Hpc) as Rp.
  assert (Hpcur : parent <> curr) by exact (pm_neq r A I parent b curr ap Hap Hb).
  pose proof (cell_lt _ _ _ Hc) as Lc. pose proof (cell_lt _ _ _ Hpc) as Lp. pose proof (k_fresh _ _ _ H) as Hx.
  pose proof (k_live0 _ _ _ _ _ H Ha) as Hc0. pose proof (k_live0 _ _ _ _ _ H Hap) as Hp0.
  pose proof (k_fresh_root _ _ _ H) as Hxr.
  destruct (rep_set_child _ _ _ Rp b slot pos (AN (mlen m)) ltac:(congruence) Hs Logic.I) as (Hsl & Rp').
  unfold place. rewrite alloc_eq. set (m2 := fst (alloc m nn)).
  assert (C1 : cell_at m2 parent = Some pc) by (unfold m2; cfact).
  rewrite (store_slot_ok m2 parent slot _ pc C1 Hsl). eexists. split; [reflexivity|].
  exists r, (moved A parent b curr (mlen m) ap a').
  assert (L2 : mlen m2 = S (mlen m)) by (unfold m2; rewrite mlen_alloc; lia).
  apply c_assemble; auto.
  - intros n [<-|[<-|[]]]; auto.
  - rewrite mlen_upd. lia.
  - exact (k_root _ _ _ H).
  - intros n N1 N2. cbn [In] in N2. unfold moved. now rewrite !aset_ne by (intros ->; (lia || (apply N2; auto))).
  - unfold moved. rewrite !aset_ne by (auto; lia). apply (k_zero _ _ _ H).
  - intros n N1 N2. cbn [In] in N2. rewrite cell_upd by lia. rewrite (proj2 (Nat.eqb_neq parent n)) by (intros ->; apply N2; auto).
    unfold m2. now rewrite cell_alloc, (proj2 (Nat.eqb_neq _ n)) by lia.
  - intros n cn [<-|[<-|[]]] Hn.
    + assert (cn = c) by congruence. subst cn. exists c. split; [unfold m2; cellc; exact Hc|]. split; auto. split; auto.
      unfold moved. rewrite !aset_ne, aset_eq by lia. left; left; auto.
    + assert (cn = pc) by congruence. subst cn. eexists. split; [unfold m2; cellc; reflexivity|]. cbn [c_ver c_node]. split; auto. split; auto.
      unfold moved. rewrite aset_eq. split; [exact Rp'|]. split; [cbn; eauto|]. cbn. intros [X|[]]. congruence.
  - intros cx. unfold m2. cellc. intros X; inversion X; subst cx. split; auto. eexists. split; [unfold moved; rewrite aset_ne, aset_eq by lia; reflexivity|]. cbn [c_node].
    try rewrite (proj2 (Nat.eqb_neq _ _) Hxr). exact R.
  - intros _ _. now rewrite mlen_upd.
  - intros n Hn. unfold moved. rewrite !aset_ne by lia. destruct (A n) as [x|] eqn:Ex; auto. apply (k_lt _ _ _ _ _ H) in Ex. lia.
  - intros x [<-|[]]. left; auto.
Qed.

Lemma c_move_root m r A c a nn a' o :
  crep m r A -> A r = Some a -> cell_at m r = Some c ->
  nrep true nn a' -> AInv (mlen m) (moved_root A r (mlen m) a') -> effect o A (moved_root A r (mlen m) a') ->
  exists m', place m LRoot nn = Ok m' /\ post [r; 0] [r] m r A m' o.
Proof.
  intros H Ha Hc R I' E. pose proof (k_inv _ _ _ H) as I.
  pose proof (cell_lt _ _ _ Hc) as Lc. pose proof (k_fresh _ _ _ H) as Hx.
  pose proof (k_live0 _ _ _ _ _ H Ha) as Hc0. pose proof (k_fresh_root _ _ _ H) as Hxr.
  unfold place. rewrite alloc_eq. set (m2 := fst (alloc m nn)). cbn [store]. eexists. split; [reflexivity|].
  exists (mlen m), (moved_root A r (mlen m) a').
  assert (L2 : mlen m2 = S (mlen m)) by (unfold m2; rewrite mlen_alloc; lia).
  apply c_assemble; auto.
  - intros n [<-|[<-|[]]]; auto. lia.
  - rewrite mlen_root. lia.
  - intros n N1 N2. cbn [In] in N2. unfold moved_root. now rewrite !aset_ne by (intros ->; (lia || (apply N2; auto))).
  - unfold moved_root. rewrite !aset_ne by (auto; lia). apply (k_zero _ _ _ H).
  - intros n N1 N2. rewrite cell_root. unfold m2. now rewrite cell_alloc, (proj2 (Nat.eqb_neq _ n)) by lia.
  - intros n cn [<-|[<-|[]]] Hn; exists cn; rewrite cell_root; (split; [unfold m2; cellc; exact Hn|]); split; auto; split; auto.
    + unfold moved_root. rewrite !aset_ne, aset_eq by lia. left; left; auto.
    + unfold moved_root. rewrite !aset_ne by (auto; lia). rewrite (k_zero _ _ _ H). auto.
  - intros cx. rewrite cell_root. unfold m2. cellc. intros X; inversion X; subst cx. split; auto.
    eexists. split; [unfold moved_root; rewrite aset_eq; reflexivity|]. cbn [c_node]. try rewrite Nat.eqb_refl. exact R.
  - intros n Hn. unfold moved_root. rewrite !aset_ne by lia. destruct (A n) as [x|] eqn:Ex; auto. apply (k_lt _ _ _ _ _ H) in Ex. lia.
  - intros x [<-|[]]. left; auto.
  - right. split; auto. unfold moved_root. now rewrite aset_ne, aset_eq by lia.
Qed.

(** ** Replacing a leaf child of [curr] by a fresh node *)
Lemma c_expand m r A curr a c b slot pos k0 v0 key value Wx nn :
  crep m r A -> A curr = Some a -> cell_at m curr = Some c ->
  aCh a b = Some (AL k0 v0) -> slot_of (c_node c) b slot pos ->
  nrep false nn (put_entry (leaf_node Wx (length Wx - length (aW a) - 1) k0 v0) key value) ->
  AInv r (expand_put A curr b (mlen m) a Wx k0 v0 key value) ->
  putted A (expand_put A curr b (mlen m) a Wx k0 v0 key value) key value ->
  exists m', place m (LSlot curr slot) nn = Ok m' /\ post [curr] [] m r A m' (OPut key value).
Proof.
  intros H Ha Hc Hb Hs R I' E. pose proof (k_inv _ _ _ H) as I.
  pose proof (k_live_cell _ _ _ _ _ _ H Ha Hc) as Rc.
  pose proof (cell_lt _ _ _ Hc) as Lc. pose proof (k_fresh _ _ _ H) as Hx.
  pose proof (k_live0 _ _ _ _ _ H Ha) as Hc0. pose proof (k_fresh_root _ _ _ H) as Hxr.
  destruct (rep_set_child _ _ _ Rc b slot pos (AN (mlen m)) ltac:(congruence) Hs Logic.I) as (Hsl & Rc').
  unfold place. rewrite alloc_eq. set (m2 := fst (alloc m nn)).
  assert (C1 : cell_at m2 curr = Some c) by (unfold m2; cfact).
  rewrite (store_slot_ok m2 curr slot _ c C1 Hsl). eexists. split; [reflexivity|].
  exists r, (expand_put A curr b (mlen m) a Wx k0 v0 key value).
  assert (L2 : mlen m2 = S (mlen m)) by (unfold m2; rewrite mlen_alloc; lia).
  apply c_assemble; auto.
  - intros n [<-|[]]; auto.
  - rewrite mlen_upd. lia.
  - exact (k_root _ _ _ H).
  - intros n N1 N2. cbn [In] in N2. unfold expand_put. now rewrite !aset_ne by (intros ->; (lia || (apply N2; auto))).
  - unfold expand_put. rewrite !aset_ne by (auto; lia). apply (k_zero _ _ _ H).
  - intros n N1 N2. cbn [In] in N2. rewrite cell_upd by lia. rewrite (proj2 (Nat.eqb_neq curr n)) by (intros ->; apply N2; auto).
    unfold m2. now rewrite cell_alloc, (proj2 (Nat.eqb_neq _ n)) by lia.
  - intros n cn [<-|[]] Hn.
    assert (cn = c) by congruence. subst cn. eexists. split; [unfold m2; cellc; reflexivity|]. cbn [c_ver c_node]. split; auto. split; auto.
    unfold expand_put. rewrite aset_ne, aset_eq by lia. split; [exact Rc'|]. split; [cbn; eauto|]. cbn. tauto.
  - intros cx. unfold m2. cellc. intros X; inversion X; subst cx. split; auto. eexists. split; [unfold expand_put; rewrite aset_eq; reflexivity|]. cbn [c_node].
    try rewrite (proj2 (Nat.eqb_neq _ _) Hxr). exact R.
  - intros _ _. now rewrite mlen_upd.
  - intros n Hn. unfold expand_put. rewrite !aset_ne by lia. destruct (A n) as [x|] eqn:Ex; auto. apply (k_lt _ _ _ _ _ H) in Ex. lia.
  - intros x [].
Qed.

(** ** A leaf takes the place of [curr] in the parent *)
Lemma c_collapse m r A parent pc curr c a ap b slot pos k0 v0 key :
  crep m r A -> A curr = Some a -> cell_at m curr = Some c -> cell_at m parent = Some pc ->
  curr <> r -> A parent = Some ap -> aCh ap b = Some (AN curr) -> slot_of (c_node pc) b slot pos ->
  is_prefix (aW a) key -> has_entry a key ->
  (forall k v, holds (del_entry a key) k v <-> k = k0 /\ v = v0) ->
  (forall x q, aCh (del_entry a key) x <> Some (AN q)) ->
  fits32 (length k0) /\ fits32 (length v0) /\ bytes_ok k0 ->
  exists m', store m (LSlot parent slot) (PLeaf (newLeaf k0 v0)) = Ok m' /\
    post [curr; parent] [curr] m r A m' (ODelete key).
Proof.
  intros H Ha Hc Hpc Hr Hap Hb Hs HP HE HH HN HF. pose proof (k_inv _ _ _ H) as I.
  pose proof (k_live_cell _ _ _ _ _ _ H Hap Hpc) as Rp.
  assert (Hpcur : parent <> curr) by exact (pm_neq r A I parent b curr ap Hap Hb).
  pose proof (cell_lt _ _ _ Hc) as Lc. pose proof (cell_lt _ _ _ Hpc) as Lp. pose proof (k_fresh _ _ _ H) as Hx.
  pose proof (k_live0 _ _ _ _ _ H Ha) as Hc0. pose proof (k_live0 _ _ _ _ _ H Hap) as Hp0.
  destruct (rep_set_child _ _ _ Rp b slot pos (AL k0 v0) ltac:(congruence) Hs HF) as (Hsl & Rp'). cbn [conv] in Rp'.
  rewrite (store_slot_ok m parent slot _ pc Hpc Hsl). eexists. split; [reflexivity|].
  destruct (del_collapse r A I parent b curr ap a k0 v0 key Hap Hb Ha HP HE HH HN) as (I' & D').
  exists r, (collapse A parent b curr ap k0 v0).
  apply c_assemble; auto.
  - intros n [<-|[<-|[]]]; auto.
  - rewrite mlen_upd. lia.
  - exact (k_root _ _ _ H).
  - intros n N1 N2. cbn [In] in N2. unfold collapse. now rewrite !aset_ne by (intros ->; (lia || (apply N2; auto))).
  - unfold collapse. rewrite !aset_ne by (auto; lia). apply (k_zero _ _ _ H).
  - intros n N1 N2. cbn [In] in N2. rewrite cell_upd by lia. now rewrite (proj2 (Nat.eqb_neq parent n)) by (intros ->; apply N2; auto).
  - intros n cn [<-|[<-|[]]] Hn.
    + assert (cn = c) by congruence. subst cn. exists c. split; [cellc; exact Hc|]. split; auto. split; auto.
      unfold collapse. rewrite aset_eq. left; left; auto.
    + assert (cn = pc) by congruence. subst cn. eexists. split; [cellc; reflexivity|]. cbn [c_ver c_node]. split; auto. split; auto.
      unfold collapse. rewrite aset_ne, aset_eq by auto. split; [exact Rp'|]. split; [cbn; eauto|]. cbn. intros [X|[]]. congruence.
  - intros cx Hcx. apply cell_lt in Hcx. rewrite mlen_upd in Hcx. lia.
  - intros x. unfold collapse. rewrite !aset_ne by lia. congruence.
  - intros n Hn. unfold collapse. rewrite !aset_ne by lia. destruct (A n) as [x|] eqn:Ex; auto. apply (k_lt _ _ _ _ _ H) in Ex. lia.
  - intros x [<-|[]]. left; auto.
Qed.

(** ** The only remaining inner child takes the place of [curr] in the parent *)
Lemma c_compress m r A parent pc curr c a ap b slot pos i c0 m0 cm key d v :
  crep m r A -> A curr = Some a -> cell_at m curr = Some c -> cell_at m parent = Some pc ->
  curr <> r -> A parent = Some ap -> aCh ap b = Some (AN curr) -> slot_of (c_node pc) b slot pos ->
  is_prefix (aW a) key -> has_entry a key ->
  nth_error (n_keys (c_node c)) i = Some c0 -> cell_at m m0 = Some cm ->
  aCh (del_entry a key) c0 = Some (AN m0) -> (forall x, x <> c0 -> aCh (del_entry a key) x = None) ->
  aLeaf (del_entry a key) = None ->
  exists m', commit_child m (mkF d parent v (LSlot parent slot) curr) i m0 = Ok m' /\
    post [m0; curr; parent] [curr] m r A m' (ODelete key).
Proof.
  intros H Ha Hc Hpc Hr Hap Hb Hs HP HE Hk Hcm Hch Ho HL. pose proof (k_inv _ _ _ H) as I.
  pose proof (k_live_cell _ _ _ _ _ _ H Ha Hc) as R. pose proof (k_live_cell _ _ _ _ _ _ H Hap Hpc) as Rp.
  assert (Hpcur : parent <> curr) by exact (pm_neq r A I parent b curr ap Hap Hb).
  pose proof (cell_lt _ _ _ Hc) as Lc. pose proof (cell_lt _ _ _ Hpc) as Lp. pose proof (cell_lt _ _ _ Hcm) as Lm.
  pose proof (k_live0 _ _ _ _ _ H Ha) as Hc0. pose proof (k_live0 _ _ _ _ _ H Hap) as Hp0.
  pose proof (k_fresh _ _ _ H) as Hx.
  pose proof (del_entry_child _ _ _ _ Hch) as Hch0.
  destruct (ai_node r A I _ _ _ _ Ha Hch0) as (am & Hm & PM & LM).
  pose proof (k_live_cell _ _ _ _ _ _ H Hm Hcm) as Rm.
  assert (Hcm0 : curr <> m0) by exact (pm_neq r A I curr c0 m0 a Ha Hch0).
  assert (Hpm0 : parent <> m0).
  { intros <-. assert (am = ap) by congruence. subst am. destruct (ai_node r A I _ _ _ _ Hap Hb) as (a2 & Ha2 & _ & L2).
    assert (a2 = a) by congruence. subst. lia. }
  pose proof (k_live0 _ _ _ _ _ H Hm) as Hm00.
  assert (Hm0r : m0 <> r) by (intros ->; exact (root_no_parent r A I _ _ _ Ha Hch0)).
  destruct (merge_spec _ (c_node c) a _ (c_node cm) am i c0 R Rm Hk PM LM) as (pre & tmp & EM & Lpre & Rm').
  destruct (rep_set_child _ _ _ Rp b slot pos (AN m0) ltac:(congruence) Hs Logic.I) as (Hsl & Rp'). cbn [conv] in Rp'.
  unfold commit_child. cbn [f_cur f_loc]. rewrite (get_node_ok m curr c Hc). cbn [bind].
  rewrite (get_node_ok m m0 cm Hcm). cbn [bind]. rewrite EM. cbn [bind].
  rewrite (put_node_ok m curr c _ Hc). cbn [bind].
  erewrite put_node_ok by cfact. cbn [bind].
  erewrite store_slot_ok; [|cfact|exact Hsl].
  eexists. split; [reflexivity|].
  destruct (del_compress r A I parent b curr c0 m0 ap a am key Hap Hb Ha HP HE HL Hch Ho Hm) as (I' & D').
  exists r, (compress A parent b curr m0 ap a am).
  apply c_assemble; auto.
  - intros n [<-|[<-|[<-|[]]]]; auto.
  - rewrite !mlen_upd. lia.
  - exact (k_root _ _ _ H).
  - intros n N1 N2. cbn [In] in N2. unfold compress. now rewrite !aset_ne by (intros ->; apply N2; auto).
  - unfold compress. rewrite !aset_ne by auto. apply (k_zero _ _ _ H).
  - intros n N1 N2. cbn [In] in N2. rewrite !cell_upd by (rewrite ?mlen_upd; lia).
    now rewrite !(proj2 (Nat.eqb_neq _ n)) by (intros ->; apply N2; auto).
  - intros n cn [<-|[<-|[<-|[]]]] Hn.
    + assert (cn = cm) by congruence. subst cn. eexists. split; [cellc; reflexivity|]. cbn [c_ver c_node]. split; auto. split; auto.
      unfold compress. rewrite aset_ne, aset_eq by auto. split; [exact Rm'|]. split; [cbn; eauto|]. cbn. intros [X|[]]. congruence.
    + assert (cn = c) by congruence. subst cn. eexists. split; [cellc; reflexivity|]. cbn [c_ver c_node]. split; auto. split; auto.
      unfold compress. rewrite aset_eq. left; left; auto.
    + assert (cn = pc) by congruence. subst cn. eexists. split; [cellc; reflexivity|]. cbn [c_ver c_node]. split; auto. split; auto.
      unfold compress. rewrite !aset_ne, aset_eq by auto. split; [exact Rp'|]. split; [cbn; eauto|]. cbn. intros [X|[]]. congruence.
  - intros cx Hcx. apply cell_lt in Hcx. rewrite !mlen_upd in Hcx. lia.
  - intros x. unfold compress. rewrite !aset_ne by lia. congruence.
  - intros n Hn. unfold compress. rewrite !aset_ne by lia. destruct (A n) as [x|] eqn:Ex; auto. apply (k_lt _ _ _ _ _ H) in Ex. lia.
  - intros x [<-|[]]. right; left; auto.
Qed.

(** ** What a goroutine knows when it enters a critical section *)
(** About the parent: it holds the pointer to the current node in the slot. *)
Definition link_fact (f : frame) (nd : node) (oa : option anode) : Prop :=
  exists ap b slot pos, oa = Some ap /\ aCh ap b = Some (AN (f_cur f)) /\ f_loc f = LSlot (f_par f) slot /\
    slot_of nd b slot pos /\ f_depth f = S (length (aW ap)).

(** About the current node, for each kind of change. *)
Definition mu_fact (o : op) (f : frame) (mu : mut) (nd : node) (oa : option anode) : Prop :=
  exists a, oa = Some a /\
  match o, mu with
  | OPut key _, MSplit p fk =>
      f_depth f = length (aW a) - aPL a /\ p < aPL a /\ is_prefix (firstn (f_depth f + p) (aW a)) key /\
      nth_error key (f_depth f + p) <> nth_error (aW a) (f_depth f + p) /\ (8 < aPL a -> is_prefix (aW a) fk)
  | OPut key _, MLeaf => aW a = key
  | OPut key _, MGrow d => d = length (aW a) /\ is_prefix (aW a) key /\ isFull nd = Ok true /\
      exists b, nth_error key d = Some b /\ aCh a b = None
  | OPut key _, MIns d => d = length (aW a) /\ is_prefix (aW a) key /\ isFull nd = Ok false /\
      exists b, nth_error key d = Some b /\ aCh a b = None
  | OPut key _, MExp d l slot => d = length (aW a) /\ is_prefix (aW a) key /\
      exists b pos k0 v0, nth_error key d = Some b /\ aCh a b = Some (AL k0 v0) /\ l = newLeaf k0 v0 /\
        slot_of nd b slot pos
  | ODelete key, MCompress => aW a = key /\ aLeaf a <> None /\ n_type nd = Node4 /\ n_num nd = 1 /\ f_par f <> 0
  | ODelete key, MClear => aW a = key /\ aLeaf a <> None /\ (f_par f <> 0 -> ~ (n_type nd = Node4 /\ n_num nd = 1))
  | ODelete key, MShrink d => d = length (aW a) /\ exists b v0 pt, nth_error key d = Some b /\
      aCh a b = Some (AL key v0) /\ shouldShrink nd pt = Ok true /\ (pt = Dummy <-> f_par f = 0)
  | ODelete key, MRem i => exists b v0 pt slot, nth_error key (length (aW a)) = Some b /\
      aCh a b = Some (AL key v0) /\ slot_of nd b slot i /\ shouldShrink nd pt = Ok false /\ (pt = Dummy <-> f_par f = 0)
  | _, _ => False
  end.

Definition lock_set (f : frame) (mu : mut) : list nat := if two mu then [f_cur f; f_par f] else [f_cur f].
Definition gone_set (f : frame) (mu : mut) : list nat := if retires mu then [f_cur f] else [].

Definition root_fact (r : nat) (f : frame) : Prop :=
  (f_par f = 0 /\ f_loc f = LRoot /\ f_cur f = r) \/ (f_par f <> 0 /\ f_cur f <> r).

Lemma root_par r f : root_fact r f -> (Nat.eqb (f_cur f) r = true <-> f_par f = 0).
Proof. intros [(E & _ & ->)|(E & E2)]; rewrite Nat.eqb_eq; split; auto; contradiction. Qed.

Lemma AInv_leaf_prefix r A n a b k v : AInv r A -> A n = Some a -> aCh a b = Some (AL k v) -> is_prefix (aW a) k.
Proof. intros I Ha Hb. eapply is_prefix_trans; [apply is_prefix_app_l|]. eapply (ai_leaf r A I); eauto. Qed.

(** Removing a key so that the node goes away: a child is pulled up, a leaf takes the
    node's place, or a smaller node does. *)
Lemma del_cases r A key f mu nd a root : AInv r A -> A (f_cur f) = Some a -> two mu = true ->
  mu_fact (ODelete key) f mu nd (Some a) -> nrep root nd a -> (root = true <-> f_par f = 0) ->
  is_prefix (aW a) key /\ has_entry a key /\
  ((f_par f <> 0 /\ exists i c0 p, pulled nd mu key = Ok (Some i) /\ nth_error (n_keys nd) i = Some c0 /\
      nth_error (n_children nd) i = Some (Some (conv p)) /\ aCh (del_entry a key) c0 = Some p /\
      (forall x, x <> c0 -> aCh (del_entry a key) x = None) /\ aLeaf (del_entry a key) = None) \/
   (f_par f <> 0 /\ exists d vl, mu = MShrink d /\ pulled nd mu key = Ok None /\ n_type nd = Node4 /\ nth_error key d <> None /\
      aLeaf a = Some vl /\ n_pleaf nd = Some (newLeaf (aW a) vl) /\
      (forall k v, holds (del_entry a key) k v <-> k = aW a /\ v = vl) /\
      (forall x q, aCh (del_entry a key) x <> Some (AN q))) \/
   (exists d b nn, mu = MShrink d /\ pulled nd mu key = Ok None /\ n_type nd <> Node4 /\ n_type nd <> Dummy /\
      nth_error key d = Some b /\ shrink_any nd b = Ok nn /\ nrep root nn (del_entry a key))).
Proof.
  intros I Ha HT (a' & Ea & M) R HR. inversion Ea; subst a'. clear Ea.
  assert (ND : n_type nd <> Dummy). { intros X. pose proof (nr_layout _ _ _ R) as (_ & _ & L). rewrite X in L. exact L. }
  assert (PULL : forall i, n_type nd = Node4 -> i < n_num nd ->
     exists p, nth_error (n_keys nd) i = Some (nth i (n_keys nd) 0) /\ nth_error (n_children nd) i = Some (Some (conv p)) /\
       aCh a (nth i (n_keys nd) 0) = Some p).
  { intros i ET Hi. destruct (four_small _ _ _ R ET) as (SO & EC). destruct (small_child _ _ _ i R SO Hi) as (p & Hp).
    exists p. pose proof (so_klen _ SO) as KL. pose proof (so_clen _ SO) as CL. pose proof (so_num _ SO) as NL.
    rewrite ET in *. cbn [cap] in *. split; [|split; auto].
    - apply nth_error_nth'. rewrite KL. cbn in *; lia.
    - assert (EV : V nd (nth i (n_keys nd) 0) = Some (conv p)) by (rewrite (nr_V _ _ _ R), Hp; reflexivity).
      apply (V_small _ _ _ SO) in EV as (j & Hj & K & E). assert (j = i) by (apply (so_inj _ SO); auto). subst j.
      rewrite <- E. apply nth_error_nth'. rewrite CL. cbn in *; lia. }
  destruct mu; try discriminate; try contradiction.
  - (* MCompress *) destruct M as (EW & EL & ET & EN1 & EP).
    assert (EN : nth_error key (length (aW a)) = None) by (apply nth_error_None; rewrite EW; lia).
    assert (ED : del_entry a key = with_leaf a None) by (unfold del_entry; now rewrite EN).
    split; [rewrite EW; apply is_prefix_refl|]. split; [unfold has_entry; now rewrite EN|]. left. split; auto.
    destruct (PULL 0 ET ltac:(lia)) as (p & P1 & P2 & P3). exists 0, (nth 0 (n_keys nd) 0), p.
    rewrite ED. split; [reflexivity|]. split; auto. split; auto. split; auto. split; auto.
    intros x Hx. cbn. destruct (aCh a x) as [q|] eqn:Eq; auto. exfalso. destruct (four_small _ _ _ R ET) as (SO & EC).
    destruct (small_pos _ _ _ _ _ R SO Eq) as (j & Hj & Kj). assert (j = 0) by lia. subst j. congruence.
  - (* MShrink *) destruct M as (-> & b & v0 & pt & Eb & Ech & ESH & EPT).
    assert (ED : del_entry a key = with_child a b None) by (unfold del_entry; now rewrite Eb).
    split; [eapply AInv_leaf_prefix; eauto|]. split; [unfold has_entry; rewrite Eb; eauto|].
    destruct (n_type nd) eqn:ET.
    + destruct (four_small _ _ _ R ET) as (SO & EC). unfold shouldShrink in ESH. rewrite ET in ESH.
      destruct (ntype_eqb pt Dummy) eqn:EDm; [discriminate|].
      assert (HP0 : f_par f <> 0) by (intros X; apply EPT in X; subst pt; discriminate).
      assert (Hroot : root = false) by (destruct root; auto; exfalso; apply HP0; now apply HR).
      pose proof (nr_pleaf _ _ _ R) as EPL. destruct (small_pos _ _ _ _ _ R SO Ech) as (j & Hj & Kj).
      destruct (aLeaf a) as [vl|] eqn:EL; cbn [option_map] in EPL; rewrite EPL in ESH; apply Ok_inj in ESH; apply Nat.leb_le in ESH.
      * right; left. split; auto. exists (length (aW a)), vl. split; auto.
        split; [unfold pulled; now rewrite ET, EPL|]. split; auto. split; [congruence|]. split; auto. split; auto. split.
        -- intros k v. rewrite ED. unfold holds. cbn. rewrite EL. split.
           ++ intros [(-> & X)|(x & X)]; [inversion X; auto|]. exfalso. unfold cset in X. destruct (Nat.eqb_spec x b); [discriminate|].
              destruct (small_pos _ _ _ _ _ R SO X) as (j' & Hj' & Kj'). assert (j' = j) by lia. subst j'. congruence.
           ++ intros (-> & ->). auto.
        -- intros x q X. rewrite ED in X. cbn in X. unfold cset in X. destruct (Nat.eqb_spec x b); [discriminate|].
           destruct (small_pos _ _ _ _ _ R SO X) as (j' & Hj' & Kj'). assert (j' = j) by lia. subst j'. congruence.
      * left. split; auto.
        assert (E2n : n_num nd = 2). { pose proof (nr_occ _ _ _ R Hroot) as O. rewrite EL in O. cbn [nleaf] in O. lia. }
        assert (GO : forall i, i < 2 -> nth i (n_keys nd) 0 <> b ->
           exists c0 p, nth_error (n_keys nd) i = Some c0 /\
             nth_error (n_children nd) i = Some (Some (conv p)) /\ aCh (del_entry a key) c0 = Some p /\
             (forall x, x <> c0 -> aCh (del_entry a key) x = None) /\ aLeaf (del_entry a key) = None).
        { intros i Hi Hne. destruct (PULL i eq_refl ltac:(lia)) as (p & P1 & P2 & P3). exists (nth i (n_keys nd) 0), p.
          split; auto. split; auto. rewrite ED. split; [cbn; now rewrite cset_ne|]. split; auto.
          intros x Hx. cbn. unfold cset. destruct (Nat.eqb_spec x b); auto.
          destruct (aCh a x) as [q|] eqn:Eq; auto. exfalso.
          destruct (small_pos _ _ _ _ _ R SO Eq) as (j' & Hj' & Kj').
          assert (j' <> j) by congruence. assert (i <> j) by congruence. assert (i = j') by lia. congruence. }
        assert (EPU : pulled nd (MShrink (length (aW a))) key = Ok (Some (if Nat.eqb (nth 0 (n_keys nd) 0) b then 1 else 0))).
        { unfold pulled. rewrite ET, EPL, E2n. cbn [Nat.eqb]. rewrite (idx_in _ 0 0) by (rewrite (so_klen _ SO), ET; cbn; lia).
          cbn [bind]. rewrite (idx_Some _ _ _ Eb). reflexivity. }
        destruct (Nat.eqb_spec (nth 0 (n_keys nd) 0) b) as [E0|E0].
        -- destruct (GO 1) as (c0 & p & G1 & G2 & G3); [lia| |exists 1, c0, p; auto].
           intros E1. pose proof (so_inj _ SO 0 1 ltac:(lia) ltac:(lia) ltac:(congruence)). lia.
        -- destruct (GO 0) as (c0 & p & G1 & G2 & G3); [lia|auto|exists 0, c0, p; auto].
    + right; right. destruct (rep_shrink _ _ _ R b pt ltac:(congruence) ltac:(congruence) ESH) as (nn & EG & R').
      exists (length (aW a)), b, nn. rewrite ED. unfold pulled. rewrite ET. split; auto. split; auto. split; [congruence|]. split; [congruence|]. auto.
    + right; right. destruct (rep_shrink _ _ _ R b pt ltac:(congruence) ltac:(congruence) ESH) as (nn & EG & R').
      exists (length (aW a)), b, nn. rewrite ED. unfold pulled. rewrite ET. split; auto. split; auto. split; [congruence|]. split; [congruence|]. auto.
    + right; right. destruct (rep_shrink _ _ _ R b pt ltac:(congruence) ltac:(congruence) ESH) as (nn & EG & R').
      exists (length (aW a)), b, nn. rewrite ED. unfold pulled. rewrite ET. split; auto. split; auto. split; [congruence|]. split; [congruence|]. auto.
    + congruence.
Qed.

Lemma idx_err {X} (l : list X) i x : nth_error l i = Some x -> idx l i = Ok x.
Proof. apply idx_Some. Qed.

(** Deciding whether a child must be locked never fails. *)
Lemma child_lock_ok r A o f mu nd a root : AInv r A -> A (f_cur f) = Some a ->
  mu_fact o f mu nd (Some a) -> nrep root nd a -> (root = true <-> f_par f = 0) ->
  exists x, child_lock nd mu (op_key o) = Ok x /\
    (forall i c, x = Some (i, c) -> two mu = true /\ retires mu = true /\ exists b, aCh a b = Some (AN c)).
Proof.
  intros I Ha M R HR.
  assert (D : pulled nd mu (op_key o) = Ok None -> exists x, child_lock nd mu (op_key o) = Ok x /\
    (forall i c, x = Some (i, c) -> two mu = true /\ retires mu = true /\ exists b, aCh a b = Some (AN c))).
  { intros E. exists None. unfold child_lock. rewrite E. split; [reflexivity|discriminate]. }
  destruct (two mu) eqn:ET; [|destruct mu; try discriminate; apply D; reflexivity].
  destruct o as [k v|k|k].
  - destruct mu; try discriminate; try (apply D; reflexivity); destruct M as (x & _ & []).
  - destruct M as (x & _ & []).
  - destruct (del_cases r A k f mu nd a root I Ha ET M R HR) as (HP & HE & [(H0 & i & c0 & p & E1 & E2 & E3 & E4 & _)|[(H0 & d & vl & _ & E1 & _)|(d & b & nn & _ & E1 & _)]]); cbn [op_key] in *; auto.
    unfold child_lock. rewrite E1. cbn [bind]. rewrite (idx_err _ _ _ E3). cbn [bind]. destruct p as [k0 v0|m0]; cbn [conv].
    + exists None. split; [reflexivity|discriminate].
    + exists (Some (i, m0)). split; [reflexivity|]. intros i' c' X. inversion X; subst. split; auto.
      assert (RT : retires mu = true). { destruct mu; try discriminate; auto; destruct M as (x & _ & []). }
      split; auto. apply del_entry_child in E4. eauto.
Qed.

Section Move.
Context (m : mem) (r : nat) (A : aheap) (H : crep m r A).
Context (o : op) (f : frame) (mu : mut) (c : cell).
Context (Hc : cell_at m (f_cur f) = Some c).
Context (RF : root_fact r f).
Context (LK : two mu = true -> f_par f <> 0 -> exists pc, cell_at m (f_par f) = Some pc /\ link_fact f (c_node pc) (A (f_par f))).

Lemma move_any a nn a' : A (f_cur f) = Some a -> two mu = true -> retires mu = true ->
  nrep (Nat.eqb (f_cur f) r) nn a' ->
  (forall p b ap, A p = Some ap -> aCh ap b = Some (AN (f_cur f)) ->
     AInv r (moved A p b (f_cur f) (mlen m) ap a') /\ effect o A (moved A p b (f_cur f) (mlen m) ap a')) ->
  (f_cur f = r -> AInv (mlen m) (moved_root A r (mlen m) a') /\ effect o A (moved_root A r (mlen m) a')) ->
  exists m', place m (f_loc f) nn = Ok m' /\ post (lock_set f mu) (gone_set f mu) m r A m' o.
Proof using H RF LK Hc.
  intros Ha HT HR R HI Hroot. unfold lock_set, gone_set. rewrite HT, HR.
  destruct RF as [(E1 & E2 & E3)|(E1 & E2)].
  - rewrite E1, E2, E3 in *. rewrite Nat.eqb_refl in R. destruct (Hroot eq_refl) as (I' & E').
    apply (c_move_root m r A c a nn a' o H Ha Hc R I' E').
  - destruct (LK HT E1) as (pc & Hpc & ap & b & slot & pos & Hap & Hb & EL & Hs & _). rewrite EL.
    rewrite (proj2 (Nat.eqb_neq _ _) E2) in R. destruct (HI _ _ _ Hap Hb) as (I' & E').
    apply (c_move_inner m r A (f_par f) pc (f_cur f) c a nn a' ap b slot pos o); auto.
Qed.

End Move.

Section Commit.
Context (m : mem) (r : nat) (A : aheap) (H : crep m r A).
Context (o : op) (f : frame) (mu : mut) (c : cell) (VO : valid_op o).
Context (Hc : cell_at m (f_cur f) = Some c) (M : mu_fact o f mu (c_node c) (A (f_cur f))).
Context (RF : root_fact r f).
Context (LK : two mu = true -> f_par f <> 0 -> exists pc, cell_at m (f_par f) = Some pc /\ link_fact f (c_node pc) (A (f_par f))).

Lemma commit_ok : child_lock (c_node c) mu (op_key o) = Ok None ->
  exists m', commit m o f mu = Ok m' /\ post (lock_set f mu) (gone_set f mu) m r A m' o.
Proof.
  intros CL. pose proof (k_inv _ _ _ H) as I. pose proof M as (a & Ea & MM).
  pose proof (k_live_cell _ _ _ _ _ _ H Ea Hc) as R. pose proof (root_par r f RF) as RP.
  pose proof (k_fresh _ _ _ H) as Hx.
  unfold commit. rewrite (get_node_ok m _ c Hc). cbn [bind].
  destruct o as [key value|key|key]; [|contradiction|].
  - destruct VO as ((HK & F1) & (HV & F2)). destruct mu; try contradiction; cbn [op_key] in *.
    + (* split *) destruct MM as (Hd & Hp & HP & Hne & Hfk).
      assert (Hr : f_cur f <> r). { intros E. rewrite E in Ea. destruct (ai_root r A I) as (ar & Hr & _ & E2). assert (ar = a) by congruence. subst. lia. }
      destruct RF as [(_ & _ & E3)|(E1 & _)]; [contradiction|].
      destruct (LK eq_refl E1) as (pc & Hpc & ap & b & slot & pos & Hap & Hb & EL & Hs & _). rewrite EL.
      apply (c_split m r A (f_cur f) a c key value (f_depth f) p fk ap b slot pos (f_par f) pc); auto.
    + (* leaf *) subst key. destruct (t_put r A I (f_cur f) a (aW a) value Ea (is_prefix_refl _)) as (I' & P').
      { unfold writable. now rewrite (proj2 (nth_error_None (aW a) (length (aW a)))) by lia. }
      unfold put_entry in I', P'. rewrite (proj2 (nth_error_None (aW a) (length (aW a)))) in I', P' by lia.
      apply (c_inplace m r A (f_cur f) a c _ (with_leaf a (Some value)) (OPut (aW a) value)); auto.
      apply rep_set_leaf; auto.
    + (* grow *) destruct MM as (-> & HP & EF & b & Eb & Ech). rewrite (idx_Some _ _ _ Eb). cbn [bind].
      pose proof (bytes_ok_nth _ _ _ HK Eb) as Hb256.
      destruct (rep_grow _ _ _ R b (AL key value) Ech Hb256 ltac:(cbn; auto) EF) as (nn & EG & _ & R').
      cbn [conv] in EG. rewrite EG. cbn [bind].
      assert (HW : writable a key) by (unfold writable; rewrite Eb; auto).
      assert (EPE : put_entry a key value = with_child a b (Some (AL key value))) by (unfold put_entry; now rewrite Eb).
      rewrite <- EPE in R'. eapply move_any; eauto.
      * intros p0 b0 ap Hap Hb0. apply (put_moved r A I p0 b0 (f_cur f) (mlen m) ap a key value); auto.
      * intros E. rewrite E in Ea. apply (put_moved_root A r I (mlen m) a key value); auto.
    + (* insert *) destruct MM as (-> & HP & EF & b & Eb & Ech). rewrite (idx_Some _ _ _ Eb). cbn [bind].
      pose proof (bytes_ok_nth _ _ _ HK Eb) as Hb256.
      destruct (rep_insert _ _ _ R b (AL key value) Ech Hb256 ltac:(cbn; auto) EF) as (nn & EG & ET & R').
      cbn [conv] in EG. rewrite EG. cbn [bind].
      assert (HW : writable a key) by (unfold writable; rewrite Eb; auto).
      assert (EPE : put_entry a key value = with_child a b (Some (AL key value))) by (unfold put_entry; now rewrite Eb).
      destruct (t_put r A I (f_cur f) a key value Ea HP HW) as (I' & P'). rewrite EPE in I', P'.
      apply (c_inplace m r A (f_cur f) a c _ _ (OPut key value) H Ea Hc R'); auto.
    + (* expand *) destruct MM as (-> & HP & b & pos & k0 & v0 & Eb & Ech & -> & Hsl).
      destruct (nr_keys _ _ _ R k0 v0) as (G1 & G2 & G3); [right; eauto|].
      assert (HW0 : is_prefix (aW a ++ [b]) key) by (apply is_prefix_snoc; auto).
      assert (HW1 : is_prefix (aW a ++ [b]) k0) by (eapply (ai_leaf r A I); eauto).
      destruct (beqb key k0) eqn:EB.
      * apply beqb_eq in EB. subst k0. rewrite update_same by auto. cbn [bind].
        destruct (rep_set_child _ _ _ R b slot pos (AL key value) ltac:(congruence) Hsl) as (Hs1 & R1); [cbn; auto|].
        destruct (t_put r A I (f_cur f) a key value Ea HP) as (I' & P').
        { unfold writable. rewrite Eb. right. eauto. }
        unfold put_entry in I', P'. rewrite Eb in I', P'.
        destruct (c_inplace m r A (f_cur f) a c _ _ (OPut key value) H Ea Hc R1 eq_refl eq_refl I' P') as (m' & E1 & E2).
        exists m'. split; auto. rewrite (store_slot_ok _ _ slot _ _ Hc Hs1). rewrite (put_node_ok _ _ _ _ Hc) in E1. exact E1.
      * assert (Hne : key <> k0) by (intros ->; rewrite beqb_refl in EB; discriminate).
        destruct (expand_spec k0 v0 key value (aW a ++ [b])) as (nn & Wx & EE & X1 & X2 & X3 & X4 & X5); auto.
        rewrite app_length in *. cbn [length] in *. rewrite EE. cbn [bind].
        replace (length Wx - (length (aW a) + 1)) with (length Wx - length (aW a) - 1) in * by lia.
        destruct (put_expand r A I (f_cur f) b (mlen m) a Wx k0 v0 key value Ea Ech Hx X1 X2 X3 X4) as (I' & P').
        apply (c_expand m r A (f_cur f) a c b slot pos k0 v0 key value Wx nn); auto.
  - destruct VO as (HK & F1). destruct (two mu) eqn:ET.
    + destruct (del_cases r A key f mu (c_node c) a _ I Ea ET ltac:(rewrite <- Ea; exact M) R RP) as (HP & HE & [(H0 & i & c0 & p & E1 & E2 & E3 & E4 & E5 & E6)|[(H0 & d & vl & -> & E1 & E2 & E3 & E4 & E5 & E6 & E7)|(d & b & nn & -> & E1 & E2 & E2' & E3 & E4 & E5)]]).
      * assert (RT : retires mu = true). { destruct mu; try discriminate; auto; contradiction. }
        destruct p as [k0 v0|m0].
        2: { exfalso. unfold child_lock in CL. cbn [op_key] in CL. rewrite E1 in CL. cbn [bind] in CL. rewrite (idx_err _ _ _ E3) in CL. discriminate. }
        cbn [conv] in E3.
        assert (G : exists m', store m (f_loc f) (PLeaf (newLeaf k0 v0)) = Ok m' /\ post (lock_set f mu) (gone_set f mu) m r A m' (ODelete key)).
        { unfold lock_set, gone_set. rewrite ET, RT.
          destruct RF as [(Z & _)|(_ & Hr)]; [contradiction|].
          destruct (LK eq_refl H0) as (pc & Hpc & ap & b1 & slot & pos & Hap & Hb & EL & Hs & _). rewrite EL.
          apply (c_collapse m r A (f_par f) pc (f_cur f) c a ap b1 slot pos k0 v0 key); auto.
          - intros k v. unfold holds. rewrite E6. split.
            + intros [(_ & X)|(x & X)]; [discriminate|]. destruct (Nat.eq_dec x c0) as [->|Hx0]; [rewrite E4 in X; inversion X; auto|].
              rewrite E5 in X by auto. discriminate.
            + intros (-> & ->). right. eauto.
          - intros x q X. destruct (Nat.eq_dec x c0) as [->|Hx0]; [congruence|]. rewrite E5 in X by auto. discriminate.
          - apply (nr_keys _ _ _ R). right. exists c0. now apply del_entry_child in E4. }
        destruct mu; try discriminate; try contradiction; rewrite E1; cbn [bind]; rewrite (idx_err _ _ _ E3); exact G.
      * rewrite E1. cbn [bind]. destruct (nth_error key d) as [b|] eqn:Eb; [|congruence]. rewrite (idx_Some _ _ _ Eb). cbn [bind].
        rewrite E2, E5.
        unfold lock_set, gone_set. cbn [two retires].
        destruct RF as [(Z & _)|(_ & Hr)]; [contradiction|].
        destruct (LK eq_refl H0) as (pc & Hpc & ap & b1 & slot & pos & Hap & Hb & EL & Hs & _). rewrite EL.
        apply (c_collapse m r A (f_par f) pc (f_cur f) c a ap b1 slot pos (aW a) vl key); auto.
        apply (nr_keys _ _ _ R). left. auto.
      * rewrite E1. cbn [bind]. rewrite (idx_Some _ _ _ E3). cbn [bind].
        assert (G : exists m', place m (f_loc f) nn = Ok m' /\ post (lock_set f (MShrink d)) (gone_set f (MShrink d)) m r A m' (ODelete key)).
        { eapply move_any; eauto.
          - intros p0 b0 ap Hap Hb0. apply (del_moved r A I p0 b0 (f_cur f) (mlen m) ap a key); auto.
          - intros E. rewrite E in Ea. apply (del_moved_root A r I (mlen m) a key); auto. }
        unfold shrink_any in E4. destruct (n_type (c_node c)); try congruence; rewrite E4; exact G.
    + destruct mu; try discriminate; try contradiction.
      * (* clear *) destruct MM as (EW & EL & EN1). subst key.
        assert (EN : nth_error (aW a) (length (aW a)) = None) by (apply nth_error_None; lia).
        assert (HE : has_entry a (aW a)) by (unfold has_entry; now rewrite EN).
        destruct (t_del r A I (f_cur f) a (aW a) Ea (is_prefix_refl _) HE) as (I' & P').
        unfold del_entry in I', P'. rewrite EN in I', P'.
        apply (c_inplace m r A (f_cur f) a c _ (with_leaf a None) (ODelete (aW a))); auto.
        apply (rep_clear_leaf _ _ _ R). intros Hroot.
        assert (HP0 : f_par f <> 0) by (intros X; apply RP in X; congruence).
        pose proof (nr_occ _ _ _ R Hroot) as O. destruct (aLeaf a); [|congruence]. cbn [nleaf] in O.
        pose proof (nr_min _ _ _ R) as HM. specialize (EN1 HP0).
        destruct (n_type (c_node c)) eqn:ETy; cbn [min_size] in HM; try lia.
        -- destruct (four_small _ _ _ R ETy) as (SO & EC). rewrite EC in *. assert (n_num (c_node c) <> 1) by tauto. lia.
        -- pose proof (nr_layout _ _ _ R) as (_ & _ & L). rewrite ETy in L. contradiction.
      * (* remove *) destruct MM as (b & v0 & pt & slot & Eb & Ech & Hsl & ESH & EPT).
        destruct (rep_remove _ _ _ R b slot i pt ltac:(congruence) Hsl ESH) as (nn & EG & R').
        { intros Hroot X. apply EPT in X. apply RP in X. congruence. }
        assert (ETy : n_type nn = n_type (c_node c)).
        { destruct (removeChild_spec (c_node c) b slot i (nr_layout _ _ _ R)) as (n' & E' & _ & T' & _); auto.
          - rewrite (nr_V _ _ _ R), Ech. discriminate.
          - congruence. }
        rewrite EG. cbn [bind].
        assert (HE : has_entry a key) by (unfold has_entry; rewrite Eb; eauto).
        assert (HP : is_prefix (aW a) key) by (eapply AInv_leaf_prefix; eauto).
        destruct (t_del r A I (f_cur f) a key Ea HP HE) as (I' & P').
        unfold del_entry in I', P'. rewrite Eb in I', P'.
        apply (c_inplace m r A (f_cur f) a c _ _ (ODelete key) H Ea Hc R'); auto.
Qed.

Lemma commit_child_ok i ch : child_lock (c_node c) mu (op_key o) = Ok (Some (i, ch)) ->
  exists m', commit_child m f i ch = Ok m' /\ post (ch :: lock_set f mu) (gone_set f mu) m r A m' o.
Proof.
  intros CL. pose proof (k_inv _ _ _ H) as I. pose proof M as (a & Ea & MM).
  pose proof (k_live_cell _ _ _ _ _ _ H Ea Hc) as R. pose proof (root_par r f RF) as RP.
  destruct (child_lock_ok r A o f mu (c_node c) a _ I Ea ltac:(rewrite <- Ea; exact M) R RP) as (x & E0 & E1).
  assert (x = Some (i, ch)) by (apply Ok_inj; congruence). subst x. destruct (E1 _ _ eq_refl) as (ET & ER & _). clear E0 E1.
  destruct o as [key value|key|key]; [destruct mu; try discriminate; contradiction|contradiction|].
  destruct (del_cases r A key f mu (c_node c) a _ I Ea ET ltac:(rewrite <- Ea; exact M) R RP) as (HP & HE & [(H0 & i' & c0 & p & E1 & E2 & E3 & E4 & E5 & E6)|[(H0 & d & vl & -> & E1 & _)|(d & b & nn & -> & E1 & _)]]).
  - cbn [op_key] in CL. unfold child_lock in CL. rewrite E1 in CL. cbn [bind] in CL. rewrite (idx_err _ _ _ E3) in CL. cbn [bind] in CL.
    destruct p as [k0 v0|m0]; cbn [conv] in CL; [discriminate|]. apply Ok_inj in CL. inversion CL; subst i' m0.
    destruct RF as [(Z & _)|(_ & Hr)]; [contradiction|].
    destruct (LK ET H0) as (pc & Hpc & ap & b1 & slot & pos & Hap & Hb & EL & Hs & _).
    pose proof (del_entry_child _ _ _ _ E4) as Hch0.
    destruct (ai_node r A I _ _ _ _ Ea Hch0) as (am & Hm & _). destruct (k_node _ _ _ H _ _ Hm) as (cm & Hcm & _).
    unfold lock_set, gone_set. rewrite ET, ER.
    destruct (c_compress m r A (f_par f) pc (f_cur f) c a ap b1 slot pos i c0 ch cm key (f_depth f) (f_pv f)) as (m' & X1 & X2); auto.
    exists m'. split; auto. rewrite <- EL in X1. destruct f. exact X1.
  - cbn [op_key] in CL. unfold child_lock in CL. rewrite E1 in CL. discriminate.
  - cbn [op_key] in CL. unfold child_lock in CL. rewrite E1 in CL. discriminate.
Qed.
End Commit.
