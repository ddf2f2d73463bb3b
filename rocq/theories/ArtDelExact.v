(** * ArtDelExact: Delete of an absent key retries for ever exactly when the key looks like a stored one. *)
From Verif Require Import Base BitsModel BitsFacts VecModel VecProofs VecProofs2 ArtNode
  ArtNodeProofs ArtNodeProofs2 ArtNodeProofs3 ArtModel ArtTree ArtTree2 ArtRep ArtRep2 ArtTree3 ArtSeq ArtMono ArtSeq2 ArtSeq3 ArtSpec ArtTop ArtDelSpec.
Ltac Zify.zify_post_hook ::= Z.div_mod_to_equations.

Definition asplit (A : aheap) (w : bytes) : Prop := exists k1 v1 k2 v2, contents A k1 v1 /\ contents A k2 v2 /\ k1 <> k2 /\
  is_prefix w k1 /\ is_prefix w k2 /\ ~ exists b, is_prefix (w ++ [b]) k1 /\ is_prefix (w ++ [b]) k2.

Lemma node_split m r A n a : hrep m r A -> A n = Some a -> n <> r -> asplit A (aW a).
Proof.
  intros H Hn Hr. destruct (h_node _ _ _ H _ _ Hn) as (c & Hc & _ & R). pose proof (nr_occ _ _ _ R (proj2 (Nat.eqb_neq _ _) Hr)) as O.
  rewrite (nrep_count _ _ _ R) in O. set (f := fun b => isSome (aCh a b)) in *.
  assert (PP : forall b k, is_prefix (aW a ++ [b]) k -> is_prefix (aW a) k) by (intros; eapply is_prefix_trans; [apply is_prefix_app_l|eauto]).
  assert (NL : forall b, ~ is_prefix (aW a ++ [b]) (aW a)) by (intros b P; apply is_prefix_length in P; rewrite app_length in P; cbn in P; lia).
  destruct (aLeaf a) as [v|] eqn:EL; cbn [nleaf] in O.
  - destruct (cnt_exists f 256 ltac:(lia)) as (b & _ & Hb). unfold f in Hb. destruct (aCh a b) as [p|] eqn:E; [|discriminate].
    destruct (key_below_child m r A n a b p H Hn E) as (k & w & HC & HP).
    exists (aW a), v, k, w. split; [exists n, a; split; auto; left; auto|]. split; [exact HC|]. split; [|split; [apply is_prefix_refl|split; [eauto|]]].
    + intros EE. rewrite <- EE in HP. exact (NL _ HP).
    + intros (x & X & _). exact (NL _ X).
  - destruct (cnt_select_exists f 256 0 ltac:(lia)) as (b1 & L1 & F1 & C1). destruct (cnt_select_exists f 256 1 ltac:(lia)) as (b2 & L2 & F2 & C2).
    unfold f in F1, F2. destruct (aCh a b1) as [p1|] eqn:E1; [|discriminate]. destruct (aCh a b2) as [p2|] eqn:E2; [|discriminate].
    destruct (key_below_child m r A n a b1 p1 H Hn E1) as (k1 & w1 & HC1 & HP1). destruct (key_below_child m r A n a b2 p2 H Hn E2) as (k2 & w2 & HC2 & HP2).
    assert (NB : b1 <> b2) by (intros ->; congruence).
    assert (X1 := proj2 (proj1 (is_prefix_snoc _ _ _) HP1)). assert (X2 := proj2 (proj1 (is_prefix_snoc _ _ _) HP2)).
    exists k1, w1, k2, w2. split; [exact HC1|]. split; [exact HC2|]. split; [intros ->; congruence|]. split; [eauto|]. split; [eauto|].
    intros (x & Y1 & Y2). apply is_prefix_snoc in Y1 as (_ & Y1). apply is_prefix_snoc in Y2 as (_ & Y2). congruence.
Qed.

Section Inv.
Context (r : nat) (A : aheap) (I : AInv r A).

Lemma no_child_no_key n a b k v : A n = Some a -> is_prefix (aW a) k -> nth_error k (length (aW a)) = Some b -> contents A k v ->
  aCh a b = Some (AL k v) \/ exists m, aCh a b = Some (AN m) /\ anext A k n = Some m.
Proof.
  intros Ha P Hb HC. destruct (aCh a b) as [[k0 v0|m]|] eqn:E.
  - left. assert (HN : anext A k n = None) by (unfold anext; rewrite Ha, Hb, E; reflexivity).
    assert (AP : apath r A k n) by (eapply live_apath; eauto).
    rewrite (contents_at r A I k n a v AP HN Ha), (local_holds r A I n a k v Ha (is_prefix_length _ _ P)) in HC.
    unfold alookup in HC. rewrite Hb, E in HC. destruct (beqb k0 k) eqn:EB; [|discriminate]. apply beqb_eq in EB. congruence.
  - right. exists m. split; auto. apply anext_Some. eauto.
  - exfalso. assert (HN : anext A k n = None) by (unfold anext; rewrite Ha, Hb, E; reflexivity).
    assert (AP : apath r A k n) by (eapply live_apath; eauto).
    rewrite (contents_at r A I k n a v AP HN Ha), (local_holds r A I n a k v Ha (is_prefix_length _ _ P)) in HC.
    unfold alookup in HC. rewrite Hb, E in HC. discriminate.
Qed.

Lemma split_node w : asplit A w -> exists n a, A n = Some a /\ aW a = w.
Proof.
  intros (k1 & v1 & k2 & v2 & C1 & C2 & NE & P1 & P2 & NB).
  assert (G : forall d n a, A n = Some a -> is_prefix (aW a) w -> length w - length (aW a) <= d -> exists n a, A n = Some a /\ aW a = w).
  { induction d as [|d IH]; intros n a Ha P Hd.
    - exists n, a. split; auto. apply is_prefix_eq_len; auto. lia.
    - destruct (Nat.le_gt_cases (length w) (length (aW a))) as [L|L]; [exists n, a; split; auto; apply is_prefix_eq_len; auto|].
      destruct (nth_error w (length (aW a))) as [b|] eqn:Eb; [|apply nth_error_None in Eb; lia].
      assert (N1 : nth_error k1 (length (aW a)) = Some b) by (rewrite <- Eb; apply is_prefix_nth; auto).
      assert (N2 : nth_error k2 (length (aW a)) = Some b) by (rewrite <- Eb; apply is_prefix_nth; auto).
      pose proof (is_prefix_trans _ _ _ P P1) as Q1. pose proof (is_prefix_trans _ _ _ P P2) as Q2.
      destruct (no_child_no_key n a b k1 v1 Ha Q1 N1 C1) as [E1|(m1 & E1 & X1)]; destruct (no_child_no_key n a b k2 v2 Ha Q2 N2 C2) as [E2|(m2 & E2 & X2)]; try congruence.
      assert (m2 = m1) by congruence. subst m2.
      destruct (ai_node r A I _ _ _ _ Ha E1) as (am & Hm & PM & LM).
      assert (R1 : is_prefix (aW am) k1). { apply (contents_path_prefix r A I k1 v1 m1 am); auto. exact (apath_step r A k1 n m1 (live_apath r A I k1 n a Ha Q1) X1). }
      assert (R2 : is_prefix (aW am) k2). { apply (contents_path_prefix r A I k2 v2 m1 am); auto. exact (apath_step r A k2 n m1 (live_apath r A I k2 n a Ha Q2) X2). }
      destruct (Nat.le_gt_cases (length (aW am)) (length w)) as [L2|L2].
      + apply (IH m1 am Hm); [eapply is_prefix_total; eauto|lia].
      + exfalso. apply NB. assert (PW : is_prefix w (aW am)) by (eapply is_prefix_total; eauto; lia).
        destruct PW as (x & PW). destruct x as [|x0 x]; [rewrite app_nil_r in PW; rewrite PW in L2; lia|].
        assert (PW' : is_prefix (w ++ [x0]) (aW am)) by (exists x; rewrite PW, <- app_assoc; reflexivity).
        exists x0. split; eapply is_prefix_trans; eauto. }
  destruct (ai_root r A I) as (a & Ha & EW & _). apply (G (length w) r a Ha).
  - rewrite EW. exists w. reflexivity.
  - lia.
Qed.

(** Forks, as nodes. *)
Definition anode_at (w : bytes) : Prop := exists n a, A n = Some a /\ aW a = w.

(** No node lies strictly between a node and its child. *)
Lemma node_between k p ap n a n0 a0 : A p = Some ap -> is_prefix (aW ap) k -> anext A k p = Some n -> A n = Some a ->
  A n0 = Some a0 -> is_prefix (aW a0) k -> length (aW a0) <= length (aW ap) \/ length (aW a) <= length (aW a0).
Proof.
  intros Hp Pp Hx Hn H0 P0. destruct (live_apath r A I k p ap Hp Pp) as (i & Hi). destruct (live_apath r A I k n0 a0 H0 P0) as (j & Hj).
  destruct (Nat.le_gt_cases j i) as [L|L].
  - left. apply is_prefix_length. eapply (aiter_down r A I k j i); eauto.
  - right. apply is_prefix_length. eapply (aiter_down r A I k (S i) j n); eauto. cbn [aiter]. now rewrite Hi.
Qed.

Definition acompared (k : bytes) (i : nat) : Prop := exists n a, A n = Some a /\ is_prefix (aW a) k /\ length (aW a) <= i <= length (aW a) + 8.

Lemma cpath_agrees key n : cpath r A key n -> forall a k, A n = Some a -> is_prefix (aW a) k ->
  forall i, i < length (aW a) - aPL a -> acompared k i -> nth_error key i = nth_error k i.
Proof.
  induction 1 as [|n a m CP IH Hn PA HX]; intros am k Hm PK i Hi HC.
  - destruct (ai_root r A I) as (a1 & X & EW & _). assert (a1 = am) by congruence. subst a1. rewrite EW in Hi. cbn in Hi. lia.
  - apply anext_Some in HX as (a' & b & Ha' & Hb & Hch). assert (a' = a) by congruence. subst a'.
    destruct (ai_node r A I _ _ _ _ Hn Hch) as (am' & Hm' & PM & LM). assert (am' = am) by congruence. subst am'.
    assert (PB : is_prefix (aW a ++ [b]) k) by (eapply is_prefix_trans; eauto). apply is_prefix_snoc in PB as (PW & NB).
    assert (i <= length (aW a)) by lia. destruct (Nat.eq_dec i (length (aW a))) as [->|NE]; [congruence|].
    destruct (Nat.lt_ge_cases i (length (aW a) - aPL a)) as [L|L]; [eapply IH; eauto|].
    destruct PA as (_ & PA). rewrite (is_prefix_nth (aW a) k) by (auto; lia). apply PA; [exact L|lia|].
    destruct HC as (n0 & a0 & H0 & P0 & L0).
    enough (length (aW a0) < length (aW a) - aPL a) by lia.
    destruct (Nat.eq_dec n r) as [->|Hr].
    { destruct (ai_root r A I) as (a1 & X & EW & _). assert (a1 = a) by congruence. subst a1. rewrite EW in *. cbn in *. lia. }
    inversion CP as [E|p ap n' CP' Hp PAp HXp E]; [congruence|]. subst n'.
    apply anext_Some in HXp as (ap' & bp & Hap' & Hbp & Hchp). assert (ap' = ap) by congruence. subst ap'.
    destruct (ai_node r A I _ _ _ _ Hp Hchp) as (aa & Haa & PMp & LMp). assert (aa = a) by congruence. subst aa.
    assert (PBp : is_prefix (aW ap ++ [bp]) k) by (eapply is_prefix_trans; eauto). apply is_prefix_snoc in PBp as (PWp & NBp).
    destruct (node_between k p ap n a n0 a0) as [Q|Q]; auto; try lia. apply anext_Some. eauto.
Qed.

(** The descent of a key that agrees with [k'] on all compared bytes follows the descent of [k']. *)
Lemma follows key k' v' j nj aj : contents A k' v' -> j < length key -> j < length k' -> A nj = Some aj -> aW aj = firstn j k' ->
  (forall n a, A n = Some a -> n <> r -> ~ is_prefix (firstn (S j) k') (aW a)) ->
  (forall i, i <= j -> acompared k' i -> nth_error key i = nth_error k' i) ->
  forall n, cpath r A key n -> exists a, A n = Some a /\ is_prefix (aW a) k' /\ length (aW a) <= j /\ passes a key.
Proof.
  intros HC Lk Lk' Hj Ej NO AG n CP.
  assert (LJ : length (aW aj) = j) by (rewrite Ej, firstn_length; lia).
  assert (PJ : is_prefix (aW aj) k') by (rewrite Ej; apply firstn_is_prefix).
  induction CP as [|n a m CP IH Hn PA HX].
  - destruct (ai_root r A I) as (a & Ha & EW & EP). exists a. rewrite EW. split; auto. split; [exists k'; reflexivity|]. split; [cbn; lia|].
    apply passes_prefix. rewrite EW. exists key. reflexivity.
  - destruct IH as (a0 & Hn0 & PW & LW & _). assert (a0 = a) by congruence. subst a0.
    apply anext_Some in HX as (a' & b & Ha' & Hb & Hch). assert (a' = a) by congruence. subst a'.
    destruct (ai_node r A I _ _ _ _ Hn Hch) as (am & Hm & PM & LM).
    assert (NB : nth_error k' (length (aW a)) = Some b).
    { rewrite <- Hb. symmetry. apply AG; auto. exists n, a. split; auto. split; auto. lia. }
    assert (HX : anext A k' n = Some m) by (apply anext_Some; eauto).
    assert (PK : is_prefix (aW am) k').
    { apply (contents_path_prefix r A I k' v' m am); auto. exact (apath_step r A k' n m (live_apath r A I k' n a Hn PW) HX). }
    assert (LJm : length (aW am) <= j).
    { destruct (node_between k' n a m am nj aj) as [Q|Q]; auto; [|lia]. exfalso.
      apply (NO m am Hm); [intros ->; exact (root_no_parent r A I _ _ _ Hn Hch)|].
      eapply is_prefix_total; [apply firstn_is_prefix|exact PK|]. rewrite firstn_length. lia. }
    exists am. split; auto. split; auto. split; auto. split; [lia|].
    intros i L1 L2 L3. rewrite <- (is_prefix_nth (aW am) k') by auto. apply AG; [lia|]. exists n, a. split; auto. split; auto. lia.
Qed.
End Inv.

Section Top.
Context (m : mem) (r : nat) (A : aheap) (h : list op) (H : hrep m r A) (M : is_map A h).

Lemma has_key_contents k : has_key m k <-> exists v, contents A k v.
Proof.
  split.
  - intros (V & v & G). exists v. apply M. exact (returns_det _ _ _ (Get_returns m r A h k H M V) G).
  - intros (v & HC).
    assert (VK : valid k).
    { destruct HC as (n & a & Hn & Hh). destruct (h_node _ _ _ H _ _ Hn) as (c & _ & _ & R). destruct (nr_keys _ _ _ R k v Hh) as (F & _ & B). split; auto. }
    split; auto. exists v. apply M in HC. rewrite <- HC. eapply Get_returns; eauto.
Qed.

Lemma fork_node w : fork m w <-> exists n a, A n = Some a /\ aW a = w.
Proof.
  pose proof (h_inv _ _ _ H) as I. split.
  - intros [->|(k1 & k2 & K1 & K2 & NE & P1 & P2 & NB)].
    + destruct (ai_root r A I) as (a & Ha & EW & _). eauto.
    + apply has_key_contents in K1 as (v1 & C1). apply has_key_contents in K2 as (v2 & C2). apply (split_node r A I). exists k1, v1, k2, v2. tauto.
  - intros (n & a & Hn & <-). destruct (Nat.eq_dec n r) as [->|Hr].
    + left. destruct (ai_root r A I) as (a1 & X & EW & _). assert (a1 = a) by congruence. now subst a1.
    + right. destruct (node_split m r A n a H Hn Hr) as (k1 & v1 & k2 & v2 & C1 & C2 & NE & P1 & P2 & NB).
      exists k1, k2. split; [apply has_key_contents; eauto|]. split; [apply has_key_contents; eauto|]. tauto.
Qed.

Lemma compared_node k i : i < length k -> (compared m k i <-> acompared A k i).
Proof.
  intros L. split.
  - intros (d & Hd & F). apply fork_node in F as (n & a & Hn & EW). exists n, a. split; auto. rewrite EW. split; [apply firstn_is_prefix|].
    rewrite firstn_length. lia.
  - intros (n & a & Hn & P & Hd). exists (length (aW a)). split; auto. apply fork_node. exists n, a. split; auto. symmetry. now apply is_prefix_firstn.
Qed.

Lemma leaf_lookalike k : ends_leaf r A k -> exists k', lookalike m k k'.
Proof.
  pose proof (h_inv _ _ _ H) as I. intros (n & a & b & k0 & v0 & CP & Ha & PA & Hb & E & NE). exists k0.
  assert (HC : contents A k0 v0) by (exists n, a; split; auto; right; eauto).
  pose proof (ai_leaf r A I _ _ _ _ _ Ha E) as PL. destruct (proj1 (is_prefix_snoc _ _ _) PL) as (PW & Hb0).
  assert (L0 : length (aW a) < length k0) by (apply nth_error_Some; congruence).
  assert (EF : firstn (length (aW a)) k0 = aW a) by now apply is_prefix_firstn.
  assert (ES : firstn (S (length (aW a))) k0 = aW a ++ [b]).
  { replace (S (length (aW a))) with (length (aW a ++ [b])) by (rewrite app_length; cbn; lia). now apply is_prefix_firstn. }
  split; [apply has_key_contents; eauto|]. exists (length (aW a)). split; [apply nth_error_Some; congruence|]. split; auto. rewrite EF, ES.
  split; [apply fork_node; eauto|]. split.
  - intros k1 K1 P1. apply has_key_contents in K1 as (v1 & C1). apply is_prefix_snoc in P1 as (P1 & N1).
    destruct (no_child_no_key r A I n a b k1 v1 Ha P1 N1 C1) as [X|(x & X & _)]; congruence.
  - intros i Li CI. apply compared_node in CI; [|lia]. destruct (Nat.eq_dec i (length (aW a))) as [->|Ni]; [congruence|].
    destruct (Nat.lt_ge_cases i (length (aW a) - aPL a)) as [L|L]; [eapply (cpath_agrees r A I k n CP a k0); eauto|].
    destruct PA as (_ & PA). rewrite (is_prefix_nth (aW a) k0) by (auto; lia). apply PA; [exact L|lia|].
    (* the last fork before [i] is the parent *)
    destruct CI as (n0 & a0 & H0 & P0 & L0').
    enough (length (aW a0) < length (aW a) - aPL a) by lia.
    destruct (Nat.eq_dec n r) as [->|Hr].
    { destruct (ai_root r A I) as (a1 & X & EW & _). assert (a1 = a) by congruence. subst a1. rewrite EW in *. cbn in *. lia. }
    inversion CP as [E'|p ap n' CP' Hp PAp HXp E']; [congruence|]. subst n'.
    apply anext_Some in HXp as (ap' & bp & Hap' & Hbp & Hchp). assert (ap' = ap) by congruence. subst ap'.
    destruct (ai_node r A I _ _ _ _ Hp Hchp) as (aa & Haa & PMp & LMp). assert (aa = a) by congruence. subst aa.
    assert (PBp : is_prefix (aW ap ++ [bp]) k0) by (eapply is_prefix_trans; eauto). apply is_prefix_snoc in PBp as (PWp & NBp).
    destruct (node_between r A I k0 p ap n a n0 a0) as [Q|Q]; auto; try lia. apply anext_Some. eauto.
Qed.

Lemma lookalike_leaf k k' : lookalike m k k' -> ends_open r A k -> False.
Proof.
  pose proof (h_inv _ _ _ H) as I. intros (K & j & L1 & L2 & F & U & AG) (n & a & CP & Ha & EO).
  apply has_key_contents in K as (v' & HC). apply fork_node in F as (nj & aj & Hj & Ej).
  destruct (follows r A I k k' v' j nj aj) with (n := n) as (a' & Ha' & PW & LW & PA); auto.
  - intros n1 a1 H1 Hr P. destruct (two_below m r A n1 a1 H H1 Hr) as (k1 & v1 & k2 & v2 & NE & C1 & C2 & P1 & P2). apply NE.
    rewrite (U k1), (U k2); auto; try (apply has_key_contents; eauto); eapply is_prefix_trans; eauto.
  - intros i Li CI. apply AG; auto. apply compared_node; auto. lia.
  - assert (a' = a) by congruence. subst a'. destruct EO as [EO|[EO|(b & Hb & EO)]]; [auto|lia|].
    assert (NB : nth_error k' (length (aW a)) = Some b).
    { rewrite <- Hb. symmetry. apply AG; auto. apply compared_node; [lia|]. exists n, a. split; auto. split; auto. lia. }
    destruct (no_child_no_key r A I n a b k' v' Ha PW NB HC) as [X|(x & X & _)]; congruence.
Qed.
End Top.

Section Reach.
Variable rch : mem -> Prop.
Hypothesis rch_rep : forall m, rch m -> exists r A h, hrep m r A /\ is_map A h.
Hypothesis rch_step : forall m o m' outs, rch m -> valid_op o -> runs m [o] m' outs -> rch m'.

Theorem delete_diverges_iff m k : rch m -> valid k -> returns (fun f => Get f m k) None ->
  (diverges (fun f => Delete f m k) <-> exists k', lookalike m k k').
Proof.
  intros HR VK HG. destruct (rch_rep m HR) as (r & A & h & H & M).
  destruct (Delete_spec m r A k H (proj1 VK)) as [(m1 & v & HC & _ & R)|[(AB & EO & R)|(AB & EL & D)]].
  - exfalso. apply M in HC. pose proof (Get_returns m r A h k H M VK) as G. rewrite HC in G. pose proof (returns_det _ _ _ G HG). discriminate.
  - split; [|intros (k' & X); exfalso; eapply lookalike_leaf; eauto].
    intros D. exfalso. destruct R as (N & R). specialize (R N (le_n _)). specialize (D N). cbn in D. congruence.
  - split; [|intros _; exact D]. intros _. eapply leaf_lookalike; eauto.
Qed.

Theorem delete_returns_iff m k : rch m -> valid k -> returns (fun f => Get f m k) None ->
  ((exists m', returns (fun f => Delete f m k) m') <-> ~ exists k', lookalike m k k').
Proof.
  intros HR VK HG. rewrite <- (delete_diverges_iff m k HR VK HG).
  destruct (delete_top rch rch_rep rch_step m k HR VK) as [(m' & R & _)|(_ & D)].
  - split; [|eauto]. intros _ D. destruct R as (N & R). specialize (R N (le_n _)). specialize (D N). cbn in D. congruence.
  - split; [|intros X; destruct (X D)]. intros (m' & N & R) _. specialize (R N (le_n _)). specialize (D N). cbn in D. congruence.
Qed.

(** For keys of at most nine bytes everything is compared. *)
Theorem delete_short_iff m k : rch m -> valid k -> length k <= 9 -> returns (fun f => Get f m k) None ->
  (diverges (fun f => Delete f m k) <->
   exists q k', q <> [] /\ is_prefix q k /\ is_prefix q k' /\ has_key m k' /\ forall k1, has_key m k1 -> is_prefix q k1 -> k1 = k').
Proof.
  intros HR VK HL HG. rewrite (delete_diverges_iff m k HR VK HG). split.
  - intros (k' & K & j & L1 & L2 & F & U & AG). exists (firstn (S j) k'), k'.
    split; [intros E; apply (f_equal (@length nat)) in E; rewrite firstn_length in E; cbn [length] in E; lia|].
    split; [|split; [apply firstn_is_prefix|auto]].
    apply is_prefix_firstn. rewrite firstn_length, Nat.min_l by lia.
    apply (nth_ext _ _ 0 0); rewrite !firstn_length; [lia|]. intros i Hi. rewrite !nth_firstn by lia.
    apply (nth_error_nth_eq _ _ _ 0); [lia|lia|]. apply AG; [lia|]. exists 0. split; [lia|]. left. reflexivity.
  - intros (q & k' & Q1 & Q2 & Q3 & (VK' & v' & G') & U). apply (delete_diverges_iff m k HR VK HG).
    eapply (delete_lone_diverges rch rch_rep m k q k' v'); eauto.
    + intros ->. pose proof (returns_det _ _ _ G' HG). discriminate.
    + intros k1 v1 V1 P1 G1. apply U; auto. split; eauto.
Qed.
End Reach.
