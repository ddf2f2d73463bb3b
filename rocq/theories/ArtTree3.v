(** * ArtTree3: the abstract effect of a whole Put or Delete *)
From Verif Require Import Base BitsModel VecModel ArtNode
  ArtNodeProofs ArtNodeProofs2 ArtNodeProofs3 ArtTree ArtTree2 ArtRep ArtRep2.

(** [A'] is [A] with [key] bound to [v], respectively unbound. *)
Definition putted (A A' : aheap) (key v : bytes) : Prop :=
  (forall v', contents A' key v' <-> v' = v) /\
  (forall k' v', k' <> key -> (contents A' k' v' <-> contents A k' v')).
Definition deleted (A A' : aheap) (key : bytes) : Prop :=
  (forall v', ~ contents A' key v') /\
  (forall k' v', k' <> key -> (contents A' k' v' <-> contents A k' v')).
Definition same_contents (A A' : aheap) : Prop := forall k v, contents A' k v <-> contents A k v.

Lemma putted_after A A1 A' key v : same_contents A A1 -> putted A1 A' key v -> putted A A' key v.
Proof. intros E (P1 & P2). split; auto. intros k' v' H. rewrite P2 by auto. apply E. Qed.
Lemma deleted_before A A1 A' key : deleted A A1 key -> same_contents A1 A' -> deleted A A' key.
Proof.
  intros (P1 & P2) E. split.
  - intros v' H. apply E in H. eapply P1; eauto.
  - intros k' v' H. rewrite <- P2 by auto. apply E.
Qed.
Lemma deleted_after A A1 A' key : same_contents A A1 -> deleted A1 A' key -> deleted A A' key.
Proof. intros E (P1 & P2). split; auto. intros k' v' H. rewrite P2 by auto. apply E. Qed.

(** The entry for [key] at a node may be overwritten. *)
Definition writable (a : anode) (key : bytes) : Prop :=
  match nth_error key (length (aW a)) with
  | None => True
  | Some b => aCh a b = None \/ exists v0, aCh a b = Some (AL key v0)
  end.
Lemma no_entry_writable a key : no_entry a key -> writable a key.
Proof. unfold no_entry, writable. destruct (nth_error _ _); auto. Qed.

Lemma writable_term A t a key : A t = Some a -> writable a key -> anext A key t = None.
Proof.
  intros Ht HW. unfold anext. rewrite Ht. unfold writable in HW. destruct (nth_error _ _); auto.
  destruct HW as [->|(v0 & ->)]; auto.
Qed.

Lemma put_entry_W a k v : aW (put_entry a k v) = aW a.
Proof. unfold put_entry. destruct (nth_error _ _); reflexivity. Qed.
Lemma put_entry_PL a k v : aPL (put_entry a k v) = aPL a.
Proof. unfold put_entry. destruct (nth_error _ _); reflexivity. Qed.

Lemma t_put r A (I : AInv r A) t a key v : A t = Some a -> is_prefix (aW a) key -> writable a key ->
  AInv r (aset A t (Some (put_entry a key v))) /\ putted A (aset A t (Some (put_entry a key v))) key v.
Proof.
  intros Ht HP HW. pose proof (writable_term _ _ _ _ Ht HW) as HN.
  pose proof (live_apath r A I key t a Ht HP) as HA.
  assert (EK : nth_error key (length (aW a)) = None -> key = aW a).
  { intros E. apply nth_error_None in E. symmetry. now apply is_prefix_eq_len. }
  split.
  - apply (s_update r A I) with (a := a); auto using put_entry_W, put_entry_PL.
    + intros b m. unfold put_entry, writable in *. destruct (nth_error key _) as [b0|] eqn:E; [|reflexivity].
      cbn. unfold cset. destruct (Nat.eqb_spec b b0) as [->|]; [|tauto]. split; [discriminate|].
      intros H. destruct HW as [W|(v0 & W)]; congruence.
    + intros b k v'. unfold put_entry. destruct (nth_error key _) as [b0|] eqn:E.
      * cbn. unfold cset. destruct (Nat.eqb_spec b b0) as [->|].
        -- intros H; inversion H; subst. apply is_prefix_snoc. auto.
        -- intros H. eapply (ai_leaf r A I); eauto.
      * cbn. intros H. eapply (ai_leaf r A I); eauto.
  - destruct (s_update_contents r A I t a (put_entry a key v) key Ht HA HN) as (S1 & S2).
    { intros k' v' Hk. unfold put_entry, writable in *. destruct (nth_error key (length (aW a))) as [b0|] eqn:E; unfold holds; cbn.
      - split; (intros [H|(b & H)]; [auto|right]).
        + unfold cset in H. destruct (Nat.eqb_spec b b0); [congruence|]. eauto.
        + exists b. rewrite cset_ne; auto. intros ->. destruct HW as [W|(v0 & W)]; congruence.
      - rewrite (EK eq_refl) in Hk. split; (intros [(H & _)|H]; [congruence|auto]). }
    split.
    + intros v'. rewrite S2. unfold put_entry, writable in *. destruct (nth_error key (length (aW a))) as [b0|] eqn:E; unfold holds; cbn.
      * split.
        -- intros [(H & _)|(b & H)].
           ++ rewrite H in E. rewrite (proj2 (nth_error_None (aW a) _)) in E by lia. discriminate.
           ++ unfold cset in H. destruct (Nat.eqb_spec b b0); [congruence|].
              pose proof (ai_leaf r A I _ _ _ _ _ Ht H) as P. apply is_prefix_snoc in P as (_ & P). congruence.
        -- intros ->. right. exists b0. now rewrite cset_eq.
      * split.
        -- intros [(_ & H)|(b & H)]; [congruence|].
           pose proof (ai_leaf r A I _ _ _ _ _ Ht H) as P. apply is_prefix_length in P. rewrite app_length in P.
           apply nth_error_None in E. cbn in P. lia.
        -- intros ->. left. split; auto.
    + auto.
Qed.

(** Removing the entry for [key]. *)
Definition del_entry (a : anode) (k : bytes) : anode :=
  match nth_error k (length (aW a)) with
  | None => with_leaf a None
  | Some b => with_child a b None
  end.
Definition has_entry (a : anode) (k : bytes) : Prop :=
  match nth_error k (length (aW a)) with
  | None => aLeaf a <> None
  | Some b => exists v, aCh a b = Some (AL k v)
  end.
Lemma has_entry_writable a key : has_entry a key -> writable a key.
Proof. unfold has_entry, writable. destruct (nth_error _ _); auto. Qed.

Lemma t_del r A (I : AInv r A) t a key : A t = Some a -> is_prefix (aW a) key -> has_entry a key ->
  AInv r (aset A t (Some (del_entry a key))) /\ deleted A (aset A t (Some (del_entry a key))) key.
Proof.
  intros Ht HP HE. pose proof (has_entry_writable _ _ HE) as HW. pose proof (writable_term _ _ _ _ Ht HW) as HN.
  pose proof (live_apath r A I key t a Ht HP) as HA.
  assert (EK : nth_error key (length (aW a)) = None -> key = aW a).
  { intros E. apply nth_error_None in E. symmetry. now apply is_prefix_eq_len. }
  split.
  - apply (s_update r A I) with (a := a); auto.
    + unfold del_entry. destruct (nth_error _ _); reflexivity.
    + unfold del_entry. destruct (nth_error _ _); reflexivity.
    + intros b m. unfold del_entry, has_entry in *. destruct (nth_error key _) as [b0|] eqn:E; [|reflexivity].
      cbn. unfold cset. destruct (Nat.eqb_spec b b0) as [->|]; [|tauto]. split; [discriminate|].
      intros H. destruct HE as (v0 & W); congruence.
    + intros b k v'. unfold del_entry. destruct (nth_error key _) as [b0|] eqn:E.
      * cbn. unfold cset. destruct (Nat.eqb_spec b b0) as [->|]; [discriminate|].
        intros H. eapply (ai_leaf r A I); eauto.
      * cbn. intros H. eapply (ai_leaf r A I); eauto.
  - destruct (s_update_contents r A I t a (del_entry a key) key Ht HA HN) as (S1 & S2).
    { intros k' v' Hk. unfold del_entry, has_entry in *. destruct (nth_error key (length (aW a))) as [b0|] eqn:E; unfold holds; cbn.
      - split; (intros [H|(b & H)]; [auto|right]).
        + unfold cset in H. destruct (Nat.eqb_spec b b0); [congruence|]. eauto.
        + exists b. rewrite cset_ne; auto. intros ->. destruct HE as (v0 & W); congruence.
      - rewrite (EK eq_refl) in Hk. split; (intros [(H & _)|H]; [congruence|auto]). }
    split; [|auto].
    intros v'. rewrite S2. unfold del_entry, has_entry in *. destruct (nth_error key (length (aW a))) as [b0|] eqn:E; unfold holds; cbn.
    + intros [(H & _)|(b & H)].
      * rewrite H in E. rewrite (proj2 (nth_error_None (aW a) _)) in E by lia. discriminate.
      * unfold cset in H. destruct (Nat.eqb_spec b b0); [congruence|].
        pose proof (ai_leaf r A I _ _ _ _ _ Ht H) as P. apply is_prefix_snoc in P as (_ & P). congruence.
    + intros [(_ & H)|(b & H)]; [congruence|].
      pose proof (ai_leaf r A I _ _ _ _ _ Ht H) as P. apply is_prefix_length in P. rewrite app_length in P.
      apply nth_error_None in E. cbn in P. lia.
Qed.

(** Moving a node to a fresh address while replacing its body: the shape of grow and shrink. *)
Definition moved (A : aheap) (p b m m' : nat) (ap a' : anode) : aheap :=
  aset (aset (aset A m None) m' (Some a')) p (Some (with_child ap b (Some (AN m')))).
Definition moved_root (A : aheap) (m m' : nat) (a' : anode) : aheap :=
  aset (aset A m None) m' (Some a').

Lemma AInv_ext r A A' : (forall i, A' i = A i) -> AInv r A -> AInv r A'.
Proof.
  intros E I. constructor.
  - destruct (ai_root r A I) as (a & H & P). exists a. rewrite E. auto.
  - intros n a b k v H. rewrite E in H. apply (ai_leaf r A I n a b k v H).
  - intros n a b m H Hb. rewrite E in H. destruct (ai_node r A I n a b m H Hb) as (am & Hm & P). exists am. rewrite E. auto.
  - intros m am H Hr. rewrite E in H. destruct (ai_parent r A I m am H Hr) as (n & a & b & Hn & P). exists n, a, b. rewrite E. auto.
Qed.
Lemma contents_ext A A' : (forall i, A' i = A i) -> same_contents A A'.
Proof. intros E k v. unfold contents. split; intros (n & a & Hn & P); exists n, a; [rewrite <- E|rewrite E]; auto. Qed.
Lemma same_trans A B C : same_contents A B -> same_contents B C -> same_contents A C.
Proof. intros H1 H2 k v. unfold same_contents in *. rewrite H2. apply H1. Qed.
Lemma putted_then A A1 A' key v : putted A A1 key v -> same_contents A1 A' -> putted A A' key v.
Proof. intros (P1 & P2) E. unfold same_contents in E. split; intros; [rewrite E; apply P1|rewrite E; auto]. Qed.

Lemma put_moved r A (I : AInv r A) p b m m' ap am key v : A p = Some ap -> aCh ap b = Some (AN m) -> A m = Some am ->
  A m' = None -> is_prefix (aW am) key -> writable am key ->
  AInv r (moved A p b m m' ap (put_entry am key v)) /\ putted A (moved A p b m m' ap (put_entry am key v)) key v.
Proof.
  intros Hp Hb Hm Hm' HP HW. assert (Hpm : p <> m) by (eapply pm_neq; eauto).
  assert (Hpm' : p <> m') by congruence. assert (Hmm' : m <> m') by congruence.
  destruct (s_rename r A I p b m m' ap am Hp Hb Hm Hm') as (I1 & S1).
  set (A1 := rename A p b m m' ap am) in *.
  assert (Hx : A1 m' = Some am). { unfold A1, rename. rewrite aset_ne by auto. apply aset_eq. }
  destruct (t_put r A1 I1 m' am key v Hx HP HW) as (I2 & S2).
  assert (E : forall i, moved A p b m m' ap (put_entry am key v) i = aset A1 m' (Some (put_entry am key v)) i).
  { intros i. unfold moved, A1, rename, aset. destruct (Nat.eqb_spec i p), (Nat.eqb_spec i m'); subst; try contradiction; reflexivity. }
  split; [eapply AInv_ext; eauto|]. eapply putted_then; [eapply putted_after; [|exact S2]; exact S1|]. now apply contents_ext.
Qed.

Lemma put_moved_root A m (I : AInv m A) m' am key v : A m = Some am ->
  A m' = None -> is_prefix (aW am) key -> writable am key ->
  AInv m' (moved_root A m m' (put_entry am key v)) /\ putted A (moved_root A m m' (put_entry am key v)) key v.
Proof.
  intros Hm Hm' HP HW. assert (Hmm' : m <> m') by congruence.
  destruct (s_rename_root m A I m' am Hm Hm') as (I1 & S1).
  set (A1 := rename_root m A m' am) in *.
  assert (Hx : A1 m' = Some am) by apply aset_eq.
  destruct (t_put m' A1 I1 m' am key v Hx HP HW) as (I2 & S2).
  assert (E : forall i, moved_root A m m' (put_entry am key v) i = aset A1 m' (Some (put_entry am key v)) i).
  { intros i. unfold moved_root, A1, rename_root, aset. destruct (Nat.eqb_spec i m'); subst; try contradiction; reflexivity. }
  split; [eapply AInv_ext; eauto|]. eapply putted_then; [eapply putted_after; [|exact S2]; exact S1|]. now apply contents_ext.
Qed.

Lemma del_moved r A (I : AInv r A) p b m m' ap am key : A p = Some ap -> aCh ap b = Some (AN m) -> A m = Some am ->
  A m' = None -> is_prefix (aW am) key -> has_entry am key ->
  AInv r (moved A p b m m' ap (del_entry am key)) /\ deleted A (moved A p b m m' ap (del_entry am key)) key.
Proof.
  intros Hp Hb Hm Hm' HP HW. assert (Hpm : p <> m) by (eapply pm_neq; eauto).
  assert (Hpm' : p <> m') by congruence. assert (Hmm' : m <> m') by congruence.
  destruct (s_rename r A I p b m m' ap am Hp Hb Hm Hm') as (I1 & S1).
  set (A1 := rename A p b m m' ap am) in *.
  assert (Hx : A1 m' = Some am). { unfold A1, rename. rewrite aset_ne by auto. apply aset_eq. }
  destruct (t_del r A1 I1 m' am key Hx HP HW) as (I2 & S2).
  assert (E : forall i, moved A p b m m' ap (del_entry am key) i = aset A1 m' (Some (del_entry am key)) i).
  { intros i. unfold moved, A1, rename, aset. destruct (Nat.eqb_spec i p), (Nat.eqb_spec i m'); subst; try contradiction; reflexivity. }
  split; [eapply AInv_ext; eauto|]. eapply deleted_before; [eapply deleted_after; [|exact S2]; exact S1|]. now apply contents_ext.
Qed.

Lemma del_moved_root A m (I : AInv m A) m' am key : A m = Some am ->
  A m' = None -> is_prefix (aW am) key -> has_entry am key ->
  AInv m' (moved_root A m m' (del_entry am key)) /\ deleted A (moved_root A m m' (del_entry am key)) key.
Proof.
  intros Hm Hm' HP HW. assert (Hmm' : m <> m') by congruence.
  destruct (s_rename_root m A I m' am Hm Hm') as (I1 & S1).
  set (A1 := rename_root m A m' am) in *.
  assert (Hx : A1 m' = Some am) by apply aset_eq.
  destruct (t_del m' A1 I1 m' am key Hx HP HW) as (I2 & S2).
  assert (E : forall i, moved_root A m m' (del_entry am key) i = aset A1 m' (Some (del_entry am key)) i).
  { intros i. unfold moved_root, A1, rename_root, aset. destruct (Nat.eqb_spec i m'); subst; try contradiction; reflexivity. }
  split; [eapply AInv_ext; eauto|]. eapply deleted_before; [eapply deleted_after; [|exact S2]; exact S1|]. now apply contents_ext.
Qed.

(** Splitting a compressed path and adding the key to the new node. *)
Definition split_put (A : aheap) (p b m x : nat) (ap am : anode) (pl : nat) (key v : bytes) : aheap :=
  aset (aset (aset A p (Some (with_child ap b (Some (AN x))))) m (Some (with_pl am (aPL am - pl - 1))))
    x (Some (put_entry (split_node m am pl) key v)).

Lemma put_split r A (I : AInv r A) p b m x ap am pl key v : A p = Some ap -> aCh ap b = Some (AN m) -> A m = Some am ->
  A x = None -> pl < aPL am -> is_prefix (aW (split_node m am pl)) key -> no_entry (split_node m am pl) key ->
  AInv r (split_put A p b m x ap am pl key v) /\ putted A (split_put A p b m x ap am pl key v) key v.
Proof.
  intros Hp Hb Hm Hx HL HP HN.
  destruct (s_split r A I p b m x ap am pl Hp Hb Hm Hx HL) as (I1 & S1).
  set (A1 := split A p b m x ap am pl) in *.
  assert (Hx1 : A1 x = Some (split_node m am pl)) by apply aset_eq.
  destruct (t_put r A1 I1 x _ key v Hx1 HP (no_entry_writable _ _ HN)) as (I2 & S2).
  assert (E : forall i, split_put A p b m x ap am pl key v i = aset A1 x (Some (put_entry (split_node m am pl) key v)) i).
  { intros i. unfold split_put, A1, split, aset. destruct (Nat.eqb_spec i x); subst; try contradiction; reflexivity. }
  split; [eapply AInv_ext; eauto|]. eapply putted_then; [eapply putted_after; [|exact S2]; exact S1|]. now apply contents_ext.
Qed.

Definition expand_put (A : aheap) (p b x : nat) (ap : anode) (Wx k0 v0 key v : bytes) : aheap :=
  aset (aset A p (Some (with_child ap b (Some (AN x)))))
    x (Some (put_entry (leaf_node Wx (length Wx - length (aW ap) - 1) k0 v0) key v)).

Lemma put_expand r A (I : AInv r A) p b x ap Wx k0 v0 key v : A p = Some ap -> aCh ap b = Some (AL k0 v0) ->
  A x = None -> is_prefix (aW ap ++ [b]) Wx -> is_prefix Wx k0 -> is_prefix Wx key ->
  no_entry (leaf_node Wx (length Wx - length (aW ap) - 1) k0 v0) key ->
  AInv r (expand_put A p b x ap Wx k0 v0 key v) /\ putted A (expand_put A p b x ap Wx k0 v0 key v) key v.
Proof.
  intros Hp Hb Hx H1 H2 H3 HN.
  destruct (s_expand r A I p b x ap Wx k0 v0 Hp Hb Hx H1 H2) as (I1 & S1).
  set (A1 := expand A p b x ap Wx k0 v0) in *.
  assert (Hx1 : A1 x = Some (leaf_node Wx (length Wx - length (aW ap) - 1) k0 v0)) by apply aset_eq.
  assert (HP : is_prefix (aW (leaf_node Wx (length Wx - length (aW ap) - 1) k0 v0)) key) by (rewrite leaf_node_W; auto).
  destruct (t_put r A1 I1 x _ key v Hx1 HP (no_entry_writable _ _ HN)) as (I2 & S2).
  assert (E : forall i, expand_put A p b x ap Wx k0 v0 key v i = aset A1 x (Some (put_entry (leaf_node Wx (length Wx - length (aW ap) - 1) k0 v0) key v)) i).
  { intros i. unfold expand_put, A1, expand, aset. destruct (Nat.eqb_spec i x); subst; try contradiction; reflexivity. }
  split; [eapply AInv_ext; eauto|]. eapply putted_then; [eapply putted_after; [|exact S2]; exact S1|]. now apply contents_ext.
Qed.

(** Removing the last-but-one entry of a node and merging the node with its only child. *)
Lemma del_compress r A (I : AInv r A) p b x c0 m ap ax am key : A p = Some ap -> aCh ap b = Some (AN x) ->
  A x = Some ax -> is_prefix (aW ax) key -> has_entry ax key ->
  aLeaf (del_entry ax key) = None -> aCh (del_entry ax key) c0 = Some (AN m) ->
  (forall c, c <> c0 -> aCh (del_entry ax key) c = None) -> A m = Some am ->
  AInv r (compress A p b x m ap ax am) /\ deleted A (compress A p b x m ap ax am) key.
Proof.
  intros Hp Hb Hx HP HE HL Hc Ho Hm.
  destruct (t_del r A I x ax key Hx HP HE) as (I1 & S1).
  set (A1 := aset A x (Some (del_entry ax key))) in *.
  assert (Hpx : p <> x) by exact (pm_neq r A I p b x ap Hp Hb).
  assert (Hxm : x <> m).
  { intros <-. apply (no_self r A1 I1 x (del_entry ax key) c0); [apply aset_eq|auto]. }
  assert (EP : aPL (del_entry ax key) = aPL ax) by (unfold del_entry; destruct (nth_error _ _); reflexivity).
  destruct (s_compress r A1 I1 p b x c0 m ap (del_entry ax key) am) as (I2 & S2); auto.
  { unfold A1. now rewrite aset_ne. }
  { apply aset_eq. }
  { unfold A1. now rewrite aset_ne by auto. }
  assert (E : forall i, compress A p b x m ap ax am i = compress A1 p b x m ap (del_entry ax key) am i).
  { intros i. unfold compress, A1, aset. rewrite EP. destruct (Nat.eqb_spec i x); subst; try contradiction; reflexivity. }
  split; [eapply AInv_ext; eauto|]. eapply deleted_before; [eapply deleted_before; [exact S1|exact S2]|]. now apply contents_ext.
Qed.

Lemma del_collapse r A (I : AInv r A) p b x ap ax k0 v0 key : A p = Some ap -> aCh ap b = Some (AN x) ->
  A x = Some ax -> is_prefix (aW ax) key -> has_entry ax key ->
  (forall k v, holds (del_entry ax key) k v <-> k = k0 /\ v = v0) ->
  (forall c q, aCh (del_entry ax key) c <> Some (AN q)) ->
  AInv r (collapse A p b x ap k0 v0) /\ deleted A (collapse A p b x ap k0 v0) key.
Proof.
  intros Hp Hb Hx HP HE HH HA.
  destruct (t_del r A I x ax key Hx HP HE) as (I1 & S1).
  set (A1 := aset A x (Some (del_entry ax key))) in *.
  assert (Hpx : p <> x) by exact (pm_neq r A I p b x ap Hp Hb).
  destruct (s_collapse r A1 I1 p b x ap (del_entry ax key) k0 v0) as (I2 & S2); auto.
  { unfold A1. now rewrite aset_ne. }
  { apply aset_eq. }
  assert (E : forall i, collapse A p b x ap k0 v0 i = collapse A1 p b x ap k0 v0 i).
  { intros i. unfold collapse, A1, aset. destruct (Nat.eqb_spec i x); subst; try contradiction; reflexivity. }
  split; [eapply AInv_ext; eauto|]. eapply deleted_before; [eapply deleted_before; [exact S1|exact S2]|]. now apply contents_ext.
Qed.
