(** * ArtTree2: structural surgeries (root move, split, expand, compress, collapse). *)
From Verif Require Import Base ArtTree.

Definition cnone : nat -> option aptr := fun _ => None.
Definition with_child (a : anode) (b : nat) (x : option aptr) : anode :=
  mkA (aW a) (aPL a) (aLeaf a) (cset (aCh a) b x).
Definition with_pl (a : anode) (n : nat) : anode := mkA (aW a) n (aLeaf a) (aCh a).
Definition with_leaf (a : anode) (l : option bytes) : anode := mkA (aW a) (aPL a) l (aCh a).

Section Inv.
Context (r : nat) (A : aheap) (I : AInv r A).

Lemma pm_neq p b m ap : A p = Some ap -> aCh ap b = Some (AN m) -> p <> m.
Proof. intros Hp Hb ->. exact (no_self r A I m ap b Hp Hb). Qed.

(** S2': moving the root *)
Definition rename_root (m' : nat) (am : anode) : aheap := aset (aset A r None) m' (Some am).

Lemma s_rename_root m' am : A r = Some am -> A m' = None ->
  AInv m' (rename_root m' am) /\ (forall k v, contents (rename_root m' am) k v <-> contents A k v).
Proof.
  intros Hm Hf. assert (Hne : r <> m') by congruence. unfold rename_root. set (A' := aset _ m' _).
  assert (Er : A' r = None) by (unfold A'; rewrite aset_ne by auto; apply aset_eq).
  assert (Em : A' m' = Some am) by apply aset_eq.
  assert (Eo : forall i, i <> r -> i <> m' -> A' i = A i) by (intros; unfold A'; rewrite !aset_ne; auto).
  assert (G : forall i x, A' i = Some x -> exists j, A j = Some x /\ (j <> r -> i = j)).
  { intros i x Hx. destruct (Nat.eq_dec i m') as [->|].
    - exists r. split; [congruence|tauto].
    - destruct (Nat.eq_dec i r) as [->|]; [congruence|]. exists i. rewrite Eo in Hx by auto. auto. }
  split.
  - constructor.
    + destruct (ai_root r A I) as (ar & Hr & E1 & E2). exists am. assert (ar = am) by congruence. subst. auto.
    + intros i x b k v Hx Hb. destruct (G i x Hx) as (j & Hj & _). eapply (ai_leaf r A I); eauto.
    + intros i x b m Hx Hb. destruct (G i x Hx) as (j & Hj & _).
      destruct (ai_node r A I _ _ _ _ Hj Hb) as (q & Hq & P & L). exists q. split; auto.
      destruct (Nat.eq_dec m r) as [->|]; [exfalso; exact (root_no_parent r A I _ _ _ Hj Hb)|].
      rewrite Eo; auto. congruence.
    + intros m x Hx Hm'. destruct (G m x Hx) as (j & Hj & E).
      destruct (Nat.eq_dec j r) as [->|Hjr].
      { destruct (Nat.eq_dec m r) as [->|Hmr]; [congruence|]. rewrite Eo in Hx by auto.
        exfalso. assert (m = r) by (eapply (W_inj r A I); eauto). congruence. }
      specialize (E Hjr). subst j.
      destruct (ai_parent r A I m x Hj Hjr) as (n & a & b & Hn & Hb).
      destruct (Nat.eq_dec n r) as [->|].
      * exists m', am, b. split; auto. congruence.
      * exists n, a, b. rewrite Eo; auto. congruence.
  - intros k v. unfold contents. split.
    + intros (i & x & Hx & Hh). destruct (G i x Hx) as (j & Hj & _). eauto.
    + intros (i & x & Hx & Hh). destruct (Nat.eq_dec i r) as [->|].
      * exists m', x. split; auto. congruence.
      * exists i, x. rewrite Eo; auto. congruence.
Qed.

(** S3: a fresh node on the edge to [m] takes the first [pl] bytes of its prefix. *)
Definition split_d (am : anode) (pl : nat) : nat := length (aW am) - aPL am + pl.
Definition split_node (m : nat) (am : anode) (pl : nat) : anode :=
  mkA (firstn (split_d am pl) (aW am)) pl None (cset cnone (nth (split_d am pl) (aW am) 0) (Some (AN m))).
Definition split (p b m x : nat) (ap am : anode) (pl : nat) : aheap :=
  aset (aset (aset A p (Some (with_child ap b (Some (AN x))))) m (Some (with_pl am (aPL am - pl - 1))))
    x (Some (split_node m am pl)).

Lemma s_split p b m x ap am pl : A p = Some ap -> aCh ap b = Some (AN m) -> A m = Some am -> A x = None ->
  pl < aPL am ->
  AInv r (split p b m x ap am pl) /\ (forall k v, contents (split p b m x ap am pl) k v <-> contents A k v).
Proof.
  intros Hp Hb Hm Hx Hpl.
  pose proof (pm_neq p b m ap Hp Hb) as Hpm.
  assert (Hpx : p <> x) by congruence. assert (Hmx : m <> x) by congruence.
  assert (Hmr : m <> r) by (intros ->; exact (root_no_parent r A I p ap b Hp Hb)).
  destruct (ai_node r A I _ _ _ _ Hp Hb) as (am' & Hm' & PW & LW). assert (am' = am) by congruence. subst am'. clear Hm'.
  assert (Hd : split_d am pl = length (aW ap) + 1 + pl) by (unfold split_d; lia).
  assert (Hxl : length (aW (split_node m am pl)) = split_d am pl) by (cbn; rewrite firstn_length; lia).
  assert (PX : is_prefix (aW ap ++ [b]) (aW (split_node m am pl))).
  { eapply is_prefix_total; [exact PW|apply firstn_is_prefix|]. rewrite Hxl, app_length. cbn. lia. }
  unfold split. set (ap' := with_child _ _ _). set (am' := with_pl _ _). set (ax := split_node m am pl) in *.
  set (A' := aset _ x _).
  assert (Ep : A' p = Some ap') by (unfold A'; rewrite aset_ne, aset_ne by auto; apply aset_eq).
  assert (Em : A' m = Some am') by (unfold A'; rewrite aset_ne by auto; apply aset_eq).
  assert (Ex : A' x = Some ax) by apply aset_eq.
  assert (Eo : forall i, i <> p -> i <> m -> i <> x -> A' i = A i) by (intros; unfold A'; rewrite !aset_ne; auto).
  assert (HU : forall i y c, A i = Some y -> aCh y c = Some (AN m) -> i = p /\ c = b)
    by (intros i y c Hy Hc; eapply (parent_unique r A I); eauto).
  (* every old node keeps its path *)
  assert (K : forall i y, A i = Some y -> exists z, A' i = Some z /\ aW z = aW y /\ aLeaf z = aLeaf y /\
     (i <> m -> aPL z = aPL y) /\ (forall c, aCh z c = aCh y c \/ (i = p /\ c = b))).
  { intros i y Hy. destruct (Nat.eq_dec i p) as [->|].
    - exists ap'. assert (y = ap) by congruence. subst. repeat split; auto. intros c. cbn. unfold cset.
      destruct (Nat.eqb_spec c b); auto.
    - destruct (Nat.eq_dec i m) as [->|].
      + exists am'. assert (y = am) by congruence. subst. repeat split; auto; try tauto.
      + exists y. rewrite Eo by congruence. repeat split; auto. }
  assert (G : forall i z, A' i = Some z -> i <> x -> exists y, A i = Some y).
  { intros i z Hz Hi. destruct (Nat.eq_dec i p) as [->|]; [eauto|]. destruct (Nat.eq_dec i m) as [->|]; [eauto|].
    rewrite Eo in Hz by auto. eauto. }
  split.
  - constructor.
    + destruct (ai_root r A I) as (ar & Hr & E1 & E2). destruct (K r ar Hr) as (z & Hz & E3 & _ & E4 & _).
      exists z. split; auto. split; [congruence|]. rewrite E4; auto.
    + intros i z c k v Hz Hc. destruct (Nat.eq_dec i x) as [->|Hi].
      * rewrite Ex in Hz. inversion Hz; subst z. cbn in Hc. unfold cset, cnone in Hc. destruct (Nat.eqb _ _); discriminate.
      * destruct (G i z Hz Hi) as (y & Hy). destruct (K i y Hy) as (z' & Hz' & E1 & _ & _ & E2).
        assert (z' = z) by congruence. subst z'. rewrite E1.
        destruct (E2 c) as [E|(-> & ->)].
        -- rewrite E in Hc. eapply (ai_leaf r A I); eauto.
        -- rewrite Ep in Hz. inversion Hz; subst z. cbn in Hc. rewrite cset_eq in Hc. discriminate.
    + intros i z c q Hz Hc. destruct (Nat.eq_dec i x) as [->|Hi].
      * rewrite Ex in Hz. inversion Hz; subst z. cbn [ax split_node aCh] in Hc. unfold cset, cnone in Hc.
        destruct (Nat.eqb_spec c (nth (split_d am pl) (aW am) 0)) as [->|]; [|discriminate]. inversion Hc; subst q.
        exists am'. split; auto. split.
        -- apply is_prefix_snoc. split; [cbn; apply firstn_is_prefix|]. rewrite Hxl. cbn.
           apply nth_error_nth'. lia.
        -- rewrite Hxl. cbn. lia.
      * destruct (G i z Hz Hi) as (y & Hy). destruct (K i y Hy) as (z' & Hz' & E1 & _ & _ & E2).
        assert (z' = z) by congruence. subst z'. rewrite E1.
        destruct (E2 c) as [E|(-> & ->)].
        -- rewrite E in Hc. destruct (ai_node r A I _ _ _ _ Hy Hc) as (aq & Hq & P & L).
           destruct (K q aq Hq) as (zq & Hzq & E3 & _ & E4 & _). exists zq. rewrite E3.
           destruct (Nat.eq_dec q m) as [->|]; [|rewrite E4 by auto; auto].
           destruct (HU _ _ _ Hy Hc) as (-> & ->). rewrite Ep in Hz. inversion Hz; subst z.
           cbn in E. rewrite cset_eq in E. congruence.
        -- rewrite Ep in Hz. inversion Hz; subst z. cbn in Hc. rewrite cset_eq in Hc. inversion Hc; subst q.
           exists ax. assert (y = ap) by congruence. subst y. split; auto. split; auto.
           change (aPL ax) with pl. rewrite Hxl. lia.
    + intros q z Hz Hqr. destruct (Nat.eq_dec q x) as [->|Hqx].
      * exists p, ap', b. split; auto. cbn. apply cset_eq.
      * destruct (Nat.eq_dec q m) as [->|Hqm].
        -- exists x, ax, (nth (split_d am pl) (aW am) 0). split; auto. cbn. apply cset_eq.
        -- destruct (G q z Hz Hqx) as (y & Hy). destruct (ai_parent r A I q y Hy Hqr) as (n & a & c & Hn & Hc).
           destruct (K n a Hn) as (zn & Hzn & _ & _ & _ & E2). exists n, zn, c. split; auto.
           destruct (E2 c) as [->|(-> & ->)]; auto. exfalso. congruence.
  - intros k v. unfold contents, holds. split.
    + intros (i & z & Hz & Hh). destruct (Nat.eq_dec i x) as [->|Hi].
      * exfalso. rewrite Ex in Hz. inversion Hz; subst z. destruct Hh as [(_ & H)|(c & Hc)].
        -- discriminate.
        -- cbn in Hc. unfold cset, cnone in Hc. destruct (Nat.eqb _ _); discriminate.
      * destruct (G i z Hz Hi) as (y & Hy). destruct (K i y Hy) as (z' & Hz' & E1 & E3 & _ & E2).
        assert (z' = z) by congruence. subst z'. exists i, y. split; auto. rewrite <- E1, <- E3.
        destruct Hh as [Hh|[c Hc]]; auto. right. exists c. destruct (E2 c) as [<-|(-> & ->)]; auto.
        rewrite Ep in Hz. inversion Hz; subst z. cbn in Hc. rewrite cset_eq in Hc. discriminate.
    + intros (i & y & Hy & Hh). destruct (K i y Hy) as (z & Hz & E1 & E3 & _ & E2).
      exists i, z. split; auto. rewrite E1, E3. destruct Hh as [Hh|[c Hc]]; auto. right. exists c.
      destruct (E2 c) as [->|(-> & ->)]; auto. congruence.
Qed.

(** S4: a leaf is pushed down into a fresh node with path [Wx]. *)
Definition leaf_node (Wx : bytes) (pl : nat) (k0 v0 : bytes) : anode :=
  if Nat.eqb (length Wx) (length k0) then mkA Wx pl (Some v0) cnone
  else mkA Wx pl None (cset cnone (nth (length Wx) k0 0) (Some (AL k0 v0))).
Definition expand (p b x : nat) (ap : anode) (Wx k0 v0 : bytes) : aheap :=
  aset (aset A p (Some (with_child ap b (Some (AN x)))))
    x (Some (leaf_node Wx (length Wx - length (aW ap) - 1) k0 v0)).

Lemma leaf_node_holds Wx pl k0 v0 k v : is_prefix Wx k0 ->
  (holds (leaf_node Wx pl k0 v0) k v <-> k = k0 /\ v = v0).
Proof.
  intros HP. unfold leaf_node, holds. destruct (Nat.eqb_spec (length Wx) (length k0)) as [E|E]; cbn.
  - assert (Wx = k0) by (apply is_prefix_eq_len; auto; lia). subst Wx. split.
    + intros [(-> & H)|(b & H)]; [|discriminate]. split; congruence.
    + intros (-> & ->). auto.
  - split.
    + intros [(_ & H)|(b & H)]; [discriminate|]. unfold cset, cnone in H. destruct (Nat.eqb _ _); [|discriminate].
      inversion H; auto.
    + intros (-> & ->). right. eexists. apply cset_eq.
Qed.

Lemma leaf_node_noAN Wx pl k0 v0 c q : aCh (leaf_node Wx pl k0 v0) c <> Some (AN q).
Proof.
  unfold leaf_node. destruct (Nat.eqb _ _); cbn; [discriminate|]. unfold cset, cnone. destruct (Nat.eqb _ _); discriminate.
Qed.
Lemma leaf_node_W Wx pl k0 v0 : aW (leaf_node Wx pl k0 v0) = Wx.
Proof. unfold leaf_node. now destruct (Nat.eqb _ _). Qed.
Lemma leaf_node_PL Wx pl k0 v0 : aPL (leaf_node Wx pl k0 v0) = pl.
Proof. unfold leaf_node. now destruct (Nat.eqb _ _). Qed.
Lemma leaf_node_AL Wx pl k0 v0 c k v : is_prefix Wx k0 ->
  aCh (leaf_node Wx pl k0 v0) c = Some (AL k v) -> k = k0 /\ v = v0 /\ is_prefix (Wx ++ [c]) k0.
Proof.
  intros HP. unfold leaf_node. destruct (Nat.eqb_spec (length Wx) (length k0)) as [E|E]; cbn; [discriminate|].
  unfold cset, cnone. destruct (Nat.eqb_spec c (nth (length Wx) k0 0)) as [->|]; [|discriminate].
  intros H; inversion H; subst. split; auto. split; auto. apply is_prefix_snoc. split; auto.
  apply nth_error_nth'. apply is_prefix_length in HP. lia.
Qed.

Lemma s_expand p b x ap Wx k0 v0 : A p = Some ap -> aCh ap b = Some (AL k0 v0) -> A x = None ->
  is_prefix (aW ap ++ [b]) Wx -> is_prefix Wx k0 ->
  AInv r (expand p b x ap Wx k0 v0) /\ (forall k v, contents (expand p b x ap Wx k0 v0) k v <-> contents A k v).
Proof.
  intros Hp Hb Hx PW PK. assert (Hpx : p <> x) by congruence.
  pose proof (is_prefix_length _ _ PW) as LW. rewrite app_length in LW. cbn in LW.
  unfold expand. set (ap' := with_child _ _ _). set (ax := leaf_node _ _ _ _). set (A' := aset _ x _).
  assert (Ep : A' p = Some ap') by (unfold A'; rewrite aset_ne by auto; apply aset_eq).
  assert (Ex : A' x = Some ax) by apply aset_eq.
  assert (Eo : forall i, i <> p -> i <> x -> A' i = A i) by (intros; unfold A'; rewrite !aset_ne; auto).
  assert (K : forall i y, A i = Some y -> exists z, A' i = Some z /\ aW z = aW y /\ aLeaf z = aLeaf y /\
     aPL z = aPL y /\ (forall c, aCh z c = aCh y c \/ (i = p /\ c = b))).
  { intros i y Hy. destruct (Nat.eq_dec i p) as [->|].
    - exists ap'. assert (y = ap) by congruence. subst. repeat split; auto. intros c. cbn. unfold cset.
      destruct (Nat.eqb_spec c b); auto.
    - exists y. rewrite Eo by congruence. repeat split; auto. }
  assert (G : forall i z, A' i = Some z -> i <> x -> exists y, A i = Some y).
  { intros i z Hz Hi. destruct (Nat.eq_dec i p) as [->|]; [eauto|].
    rewrite Eo in Hz by auto. eauto. }
  split.
  - constructor.
    + destruct (ai_root r A I) as (ar & Hr & E1 & E2). destruct (K r ar Hr) as (z & Hz & E3 & _ & E4 & _).
      exists z. split; auto. split; congruence.
    + intros i z c k v Hz Hc. destruct (Nat.eq_dec i x) as [->|Hi].
      * rewrite Ex in Hz. inversion Hz; subst z. apply leaf_node_AL in Hc as (-> & _ & Hc); auto.
        unfold ax. rewrite leaf_node_W. auto.
      * destruct (G i z Hz Hi) as (y & Hy). destruct (K i y Hy) as (z' & Hz' & E1 & _ & _ & E2).
        assert (z' = z) by congruence. subst z'. rewrite E1.
        destruct (E2 c) as [E|(-> & ->)].
        -- rewrite E in Hc. eapply (ai_leaf r A I); eauto.
        -- rewrite Ep in Hz. inversion Hz; subst z. cbn in Hc. rewrite cset_eq in Hc. discriminate.
    + intros i z c q Hz Hc. destruct (Nat.eq_dec i x) as [->|Hi].
      * rewrite Ex in Hz. inversion Hz; subst z. now apply leaf_node_noAN in Hc.
      * destruct (G i z Hz Hi) as (y & Hy). destruct (K i y Hy) as (z' & Hz' & E1 & _ & _ & E2).
        assert (z' = z) by congruence. subst z'. rewrite E1.
        destruct (E2 c) as [E|(-> & ->)].
        -- rewrite E in Hc. destruct (ai_node r A I _ _ _ _ Hy Hc) as (aq & Hq & P & L).
           destruct (K q aq Hq) as (zq & Hzq & E3 & _ & E4 & _). exists zq. rewrite E3, E4. auto.
        -- rewrite Ep in Hz. inversion Hz; subst z. cbn in Hc. rewrite cset_eq in Hc. inversion Hc; subst q.
           exists ax. assert (y = ap) by congruence. subst y. unfold ax. rewrite leaf_node_W, leaf_node_PL.
           split; auto. split; auto. lia.
    + intros q z Hz Hqr. destruct (Nat.eq_dec q x) as [->|Hqx].
      * exists p, ap', b. split; auto. cbn. apply cset_eq.
      * destruct (G q z Hz Hqx) as (y & Hy). destruct (ai_parent r A I q y Hy Hqr) as (n & a & c & Hn & Hc).
        destruct (K n a Hn) as (zn & Hzn & _ & _ & _ & E2). exists n, zn, c. split; auto.
        destruct (E2 c) as [->|(-> & ->)]; auto. exfalso. congruence.
  - intros k v. unfold contents. split.
    + intros (i & z & Hz & Hh). destruct (Nat.eq_dec i x) as [->|Hi].
      * rewrite Ex in Hz. inversion Hz; subst z. apply leaf_node_holds in Hh as (-> & ->); auto.
        exists p, ap. split; auto. right. eauto.
      * destruct (G i z Hz Hi) as (y & Hy). destruct (K i y Hy) as (z' & Hz' & E1 & E3 & _ & E2).
        assert (z' = z) by congruence. subst z'. exists i, y. split; auto. unfold holds in *. rewrite <- E1, <- E3.
        destruct Hh as [Hh|[c Hc]]; auto. right. exists c. destruct (E2 c) as [<-|(-> & ->)]; auto.
        rewrite Ep in Hz. inversion Hz; subst z. cbn in Hc. rewrite cset_eq in Hc. discriminate.
    + intros (i & y & Hy & Hh). destruct (K i y Hy) as (z & Hz & E1 & E3 & _ & E2).
      destruct Hh as [Hh|[c Hc]].
      * exists i, z. split; auto. left. rewrite E1, E3. auto.
      * destruct (E2 c) as [E|(-> & ->)].
        -- exists i, z. split; auto. right. exists c. congruence.
        -- exists x, ax. split; auto. apply leaf_node_holds; auto. assert (y = ap) by congruence. subst.
           rewrite Hb in Hc. inversion Hc; auto.
Qed.

(** S5: a node [x] whose only entry is the child [m] is merged into [m]. *)
Definition compress (p b x m : nat) (ap ax am : anode) : aheap :=
  aset (aset (aset A p (Some (with_child ap b (Some (AN m))))) m (Some (with_pl am (aPL am + (aPL ax + 1)))))
    x None.

Lemma s_compress p b x c0 m ap ax am : A p = Some ap -> aCh ap b = Some (AN x) -> A x = Some ax ->
  aLeaf ax = None -> aCh ax c0 = Some (AN m) -> (forall c, c <> c0 -> aCh ax c = None) -> A m = Some am ->
  AInv r (compress p b x m ap ax am) /\ (forall k v, contents (compress p b x m ap ax am) k v <-> contents A k v).
Proof.
  intros Hp Hb Hx Hlf Hc0 Honly Hm.
  pose proof (pm_neq p b x ap Hp Hb) as Hpx. pose proof (pm_neq x c0 m ax Hx Hc0) as Hxm.
  assert (Hxr : x <> r) by (intros ->; exact (root_no_parent r A I p ap b Hp Hb)).
  assert (Hmr : m <> r) by (intros ->; exact (root_no_parent r A I x ax c0 Hx Hc0)).
  destruct (ai_node r A I _ _ _ _ Hp Hb) as (ax' & Hx' & PX & LX). assert (ax' = ax) by congruence. subst ax'. clear Hx'.
  destruct (ai_node r A I _ _ _ _ Hx Hc0) as (am' & Hm' & PM & LM). assert (am' = am) by congruence. subst am'. clear Hm'.
  assert (Hpm : p <> m).
  { intros ->. assert (am = ap) by congruence. subst. lia. }
  unfold compress. set (ap' := with_child _ _ _). set (am' := with_pl _ _). set (A' := aset _ x _).
  assert (Ep : A' p = Some ap') by (unfold A'; rewrite aset_ne, aset_ne by auto; apply aset_eq).
  assert (Em : A' m = Some am') by (unfold A'; rewrite aset_ne by auto; apply aset_eq).
  assert (Ex : A' x = None) by apply aset_eq.
  assert (Eo : forall i, i <> p -> i <> m -> i <> x -> A' i = A i) by (intros; unfold A'; rewrite !aset_ne; auto).
  assert (HUx : forall i y c, A i = Some y -> aCh y c = Some (AN x) -> i = p /\ c = b)
    by (intros i y c Hy Hc; eapply (parent_unique r A I); eauto).
  assert (HUm : forall i y c, A i = Some y -> aCh y c = Some (AN m) -> i = x /\ c = c0)
    by (intros i y c Hy Hc; eapply (parent_unique r A I); eauto).
  assert (K : forall i y, A i = Some y -> i <> x -> exists z, A' i = Some z /\ aW z = aW y /\ aLeaf z = aLeaf y /\
     (i <> m -> aPL z = aPL y) /\ (forall c, aCh z c = aCh y c \/ (i = p /\ c = b))).
  { intros i y Hy Hix. destruct (Nat.eq_dec i p) as [->|].
    - exists ap'. assert (y = ap) by congruence. subst. repeat split; auto. intros c. cbn. unfold cset.
      destruct (Nat.eqb_spec c b); auto.
    - destruct (Nat.eq_dec i m) as [->|].
      + exists am'. assert (y = am) by congruence. subst. repeat split; auto; try tauto.
      + exists y. rewrite Eo by congruence. repeat split; auto. }
  assert (G : forall i z, A' i = Some z -> i <> x /\ exists y, A i = Some y).
  { intros i z Hz. split; [congruence|]. destruct (Nat.eq_dec i p) as [->|]; [eauto|]. destruct (Nat.eq_dec i m) as [->|]; [eauto|].
    destruct (Nat.eq_dec i x) as [->|]; [eauto|]. rewrite Eo in Hz by auto. eauto. }
  split.
  - constructor.
    + destruct (ai_root r A I) as (ar & Hr & E1 & E2). destruct (K r ar Hr) as (z & Hz & E3 & _ & E4 & _); auto.
      exists z. split; auto. split; [congruence|]. rewrite E4; auto.
    + intros i z c k v Hz Hc. destruct (G i z Hz) as (Hi & y & Hy). destruct (K i y Hy Hi) as (z' & Hz' & E1 & _ & _ & E2).
      assert (z' = z) by congruence. subst z'. rewrite E1.
      destruct (E2 c) as [E|(-> & ->)].
      * rewrite E in Hc. eapply (ai_leaf r A I); eauto.
      * rewrite Ep in Hz. inversion Hz; subst z. cbn in Hc. rewrite cset_eq in Hc. discriminate.
    + intros i z c q Hz Hc. destruct (G i z Hz) as (Hi & y & Hy). destruct (K i y Hy Hi) as (z' & Hz' & E1 & _ & _ & E2).
      assert (z' = z) by congruence. subst z'. rewrite E1.
      destruct (Nat.eq_dec i p) as [->|Hip].
      * assert (y = ap) by congruence. subst y. rewrite Ep in Hz. inversion Hz; subst z. cbn in Hc. unfold cset in Hc.
        destruct (Nat.eqb_spec c b) as [->|Hcb].
        -- inversion Hc; subst q. exists am'. split; auto. cbn. split; [|lia].
           eapply is_prefix_trans; [exact PX|]. eapply is_prefix_trans; [|exact PM]. apply is_prefix_app_l.
        -- destruct (ai_node r A I _ _ _ _ Hy Hc) as (aq & Hq & P & L).
           assert (q <> m) by (intros ->; destruct (HUm _ _ _ Hy Hc); congruence).
           assert (q <> x) by (intros ->; destruct (HUx _ _ _ Hy Hc); congruence).
           destruct (K q aq Hq) as (zq & Hzq & E3 & _ & E4 & _); auto. exists zq. rewrite E3, E4; auto.
      * destruct (E2 c) as [E|(-> & _)]; [|congruence]. rewrite E in Hc.
        destruct (ai_node r A I _ _ _ _ Hy Hc) as (aq & Hq & P & L).
        assert (q <> m) by (intros ->; destruct (HUm _ _ _ Hy Hc); congruence).
        assert (q <> x) by (intros ->; destruct (HUx _ _ _ Hy Hc); congruence).
        destruct (K q aq Hq) as (zq & Hzq & E3 & _ & E4 & _); auto. exists zq. rewrite E3, E4; auto.
    + intros q z Hz Hqr. destruct (G q z Hz) as (Hqx & y & Hy). destruct (Nat.eq_dec q m) as [->|Hqm].
      * exists p, ap', b. split; auto. cbn. apply cset_eq.
      * destruct (ai_parent r A I q y Hy Hqr) as (n & a & c & Hn & Hc).
        assert (n <> x).
        { intros ->. assert (a = ax) by congruence. subst a. destruct (Nat.eq_dec c c0) as [->|Hcc]; [congruence|].
          rewrite Honly in Hc by auto. discriminate. }
        destruct (K n a Hn) as (zn & Hzn & _ & _ & _ & E2); auto. exists n, zn, c. split; auto.
        destruct (E2 c) as [->|(-> & ->)]; auto. exfalso. congruence.
  - intros k v. unfold contents, holds. split.
    + intros (i & z & Hz & Hh). destruct (G i z Hz) as (Hi & y & Hy). destruct (K i y Hy Hi) as (z' & Hz' & E1 & E3 & _ & E2).
      assert (z' = z) by congruence. subst z'. exists i, y. split; auto. rewrite <- E1, <- E3.
      destruct Hh as [Hh|[c Hc]]; auto. right. exists c. destruct (E2 c) as [<-|(-> & ->)]; auto.
      rewrite Ep in Hz. inversion Hz; subst z. cbn in Hc. rewrite cset_eq in Hc. discriminate.
    + intros (i & y & Hy & Hh). assert (i <> x).
      { intros ->. assert (y = ax) by congruence. subst y. destruct Hh as [(_ & H)|(c & Hc)]; [congruence|].
        destruct (Nat.eq_dec c c0) as [->|Hcc]; [congruence|]. rewrite Honly in Hc by auto. discriminate. }
      destruct (K i y Hy) as (z & Hz & E1 & E3 & _ & E2); auto.
      exists i, z. split; auto. rewrite E1, E3. destruct Hh as [Hh|[c Hc]]; auto. right. exists c.
      destruct (E2 c) as [->|(-> & ->)]; auto. congruence.
Qed.

(** S6: a node [x] holding a single pair is replaced by that leaf. *)
Definition collapse (p b x : nat) (ap : anode) (k0 v0 : bytes) : aheap :=
  aset (aset A p (Some (with_child ap b (Some (AL k0 v0))))) x None.

Lemma s_collapse p b x ap ax k0 v0 : A p = Some ap -> aCh ap b = Some (AN x) -> A x = Some ax ->
  (forall k v, holds ax k v <-> k = k0 /\ v = v0) -> (forall c q, aCh ax c <> Some (AN q)) ->
  AInv r (collapse p b x ap k0 v0) /\ (forall k v, contents (collapse p b x ap k0 v0) k v <-> contents A k v).
Proof.
  intros Hp Hb Hx HH Hno.
  pose proof (pm_neq p b x ap Hp Hb) as Hpx.
  assert (Hxr : x <> r) by (intros ->; exact (root_no_parent r A I p ap b Hp Hb)).
  destruct (ai_node r A I _ _ _ _ Hp Hb) as (ax' & Hx' & PX & LX). assert (ax' = ax) by congruence. subst ax'. clear Hx'.
  assert (PK : is_prefix (aW ap ++ [b]) k0).
  { eapply is_prefix_trans; [exact PX|]. eapply (holds_prefix r A I x ax); eauto. apply HH; auto. }
  unfold collapse. set (ap' := with_child _ _ _). set (A' := aset _ x _).
  assert (Ep : A' p = Some ap') by (unfold A'; rewrite aset_ne by auto; apply aset_eq).
  assert (Ex : A' x = None) by apply aset_eq.
  assert (Eo : forall i, i <> p -> i <> x -> A' i = A i) by (intros; unfold A'; rewrite !aset_ne; auto).
  assert (HUx : forall i y c, A i = Some y -> aCh y c = Some (AN x) -> i = p /\ c = b)
    by (intros i y c Hy Hc; eapply (parent_unique r A I); eauto).
  assert (K : forall i y, A i = Some y -> i <> x -> exists z, A' i = Some z /\ aW z = aW y /\ aLeaf z = aLeaf y /\
     aPL z = aPL y /\ (forall c, aCh z c = aCh y c \/ (i = p /\ c = b))).
  { intros i y Hy Hix. destruct (Nat.eq_dec i p) as [->|].
    - exists ap'. assert (y = ap) by congruence. subst. repeat split; auto. intros c. cbn. unfold cset.
      destruct (Nat.eqb_spec c b); auto.
    - exists y. rewrite Eo by congruence. repeat split; auto. }
  assert (G : forall i z, A' i = Some z -> i <> x /\ exists y, A i = Some y).
  { intros i z Hz. split; [congruence|]. destruct (Nat.eq_dec i p) as [->|]; [eauto|].
    destruct (Nat.eq_dec i x) as [->|]; [eauto|]. rewrite Eo in Hz by auto. eauto. }
  split.
  - constructor.
    + destruct (ai_root r A I) as (ar & Hr & E1 & E2). destruct (K r ar Hr) as (z & Hz & E3 & _ & E4 & _); auto.
      exists z. split; auto. split; congruence.
    + intros i z c k v Hz Hc. destruct (G i z Hz) as (Hi & y & Hy). destruct (K i y Hy Hi) as (z' & Hz' & E1 & _ & _ & E2).
      assert (z' = z) by congruence. subst z'. rewrite E1.
      destruct (E2 c) as [E|(-> & ->)].
      * rewrite E in Hc. eapply (ai_leaf r A I); eauto.
      * rewrite Ep in Hz. inversion Hz; subst z. cbn in Hc. rewrite cset_eq in Hc. inversion Hc; subst.
        assert (y = ap) by congruence. subst. auto.
    + intros i z c q Hz Hc. destruct (G i z Hz) as (Hi & y & Hy). destruct (K i y Hy Hi) as (z' & Hz' & E1 & _ & _ & E2).
      assert (z' = z) by congruence. subst z'. rewrite E1.
      destruct (E2 c) as [E|(-> & ->)].
      * rewrite E in Hc. destruct (ai_node r A I _ _ _ _ Hy Hc) as (aq & Hq & P & L).
        assert (q <> x).
        { intros ->. destruct (HUx _ _ _ Hy Hc) as (-> & ->). rewrite Ep in Hz. inversion Hz; subst z.
          cbn in E. rewrite cset_eq in E. congruence. }
        destruct (K q aq Hq) as (zq & Hzq & E3 & _ & E4 & _); auto. exists zq. rewrite E3, E4; auto.
      * rewrite Ep in Hz. inversion Hz; subst z. cbn in Hc. rewrite cset_eq in Hc. discriminate.
    + intros q z Hz Hqr. destruct (G q z Hz) as (Hqx & y & Hy).
      destruct (ai_parent r A I q y Hy Hqr) as (n & a & c & Hn & Hc).
      assert (n <> x). { intros ->. assert (a = ax) by congruence. subst a. now apply Hno in Hc. }
      destruct (K n a Hn) as (zn & Hzn & _ & _ & _ & E2); auto. exists n, zn, c. split; auto.
      destruct (E2 c) as [->|(-> & ->)]; auto. exfalso. congruence.
  - intros k v. unfold contents. split.
    + intros (i & z & Hz & Hh). destruct (G i z Hz) as (Hi & y & Hy). destruct (K i y Hy Hi) as (z' & Hz' & E1 & E3 & _ & E2).
      assert (z' = z) by congruence. subst z'. destruct Hh as [Hh|[c Hc]].
      * exists i, y. split; auto. left. rewrite <- E1, <- E3. auto.
      * destruct (E2 c) as [E|(-> & ->)].
        -- exists i, y. split; auto. right. exists c. congruence.
        -- rewrite Ep in Hz. inversion Hz; subst z. cbn in Hc. rewrite cset_eq in Hc. inversion Hc; subst.
           exists x, ax. split; auto. apply HH; auto.
    + intros (i & y & Hy & Hh). destruct (Nat.eq_dec i x) as [->|Hi].
      * assert (y = ax) by congruence. subst y. apply HH in Hh as (-> & ->).
        exists p, ap'. split; auto. right. exists b. cbn. apply cset_eq.
      * destruct (K i y Hy) as (z & Hz & E1 & E3 & _ & E2); auto.
        exists i, z. split; auto. unfold holds in *. rewrite E1, E3. destruct Hh as [Hh|[c Hc]]; auto. right. exists c.
        destruct (E2 c) as [->|(-> & ->)]; auto. congruence.
Qed.
End Inv.
