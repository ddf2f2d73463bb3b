(** * firstChild and lastChild: which child they return. *)
From Verif Require Import Base BitsModel BitsFacts VecModel VecProofs VecProofs2 ArtNode ArtNodeProofs ArtNodeProofs2 ArtNodeProofs3 ArtModel ArtTree ArtTree2 ArtRep ArtRep2 ArtTree3 ArtSeq ArtMono ArtSeq2 ArtSeq3 ArtSpec ArtTop ArtRange.

Lemma first48_least n : ok48 n -> forall f i p, i + f = 256 -> (forall b, b < i -> V n b = None) ->
  first48_loop n f i = Ok p -> exists b q, p = Some q /\ b < 256 /\ V n b = Some q /\ forall b', b' < b -> V n b' = None.
Proof.
  intros O. induction f as [|f IH]; intros i p Hf HB H; cbn [first48_loop] in H; [discriminate|].
  rewrite (idx_in _ i 0) in H by (rewrite (o48_ilen n O); lia). cbn [bind] in H.
  destruct (nth i (n_index n) 0) as [|s] eqn:E.
  - cbn [Nat.eqb] in H. apply (IH (i + 1)); auto; [lia|]. intros b Hb. destruct (Nat.eq_dec b i) as [->|]; [|apply HB; lia].
    unfold V. now rewrite (o48_type n O), E.
  - cbn [Nat.eqb] in H. replace (S s - 1) with s in H by lia. destruct (o48_used n O i s E) as (Hp & Hnn & _).
    rewrite (idx_in _ s None) in H by (rewrite (o48_clen n O); auto). apply Ok_inj in H. subst p.
    destruct (nth s (n_children n) None) as [q|] eqn:Eq; [|congruence]. exists i, q. split; auto. split; [lia|]. split; auto.
    unfold V. now rewrite (o48_type n O), E.
Qed.

Lemma first256_least n : n_type n = Node256 -> length (n_children n) = 256 -> forall f i p, i + f = 256 -> (forall b, b < i -> V n b = None) ->
  first256_loop n f i = Ok p -> exists b q, p = Some q /\ b < 256 /\ V n b = Some q /\ forall b', b' < b -> V n b' = None.
Proof.
  intros Et HL. induction f as [|f IH]; intros i p Hf HB H; cbn [first256_loop] in H; [discriminate|].
  rewrite (idx_in _ i None) in H by lia. cbn [bind] in H.
  assert (VE : V n i = nth i (n_children n) None) by (unfold V; now rewrite Et).
  destruct (nth i (n_children n) None) as [q|] eqn:E.
  - apply Ok_inj in H. subst p. exists i, q. split; auto. split; [lia|]. auto.
  - apply (IH (i + 1)); auto; [lia|]. intros b Hb. destruct (Nat.eq_dec b i) as [->|]; [auto|apply HB; lia].
Qed.

Lemma last48_greatest n : ok48 n -> forall f, f <= 256 -> (forall b, f <= b -> V n b = None) -> (exists b, V n b <> None) ->
  exists b q, last48_loop n f = Ok (Some q) /\ b < 256 /\ V n b = Some q /\ forall b', b < b' -> V n b' = None.
Proof.
  intros O. induction f as [|i IH]; intros Hf HB (b0 & HV); cbn [last48_loop].
  - exfalso. apply HV. apply HB. lia.
  - rewrite (idx_in _ i 0) by (rewrite (o48_ilen n O); lia). cbn [bind].
    destruct (nth i (n_index n) 0) as [|s] eqn:E; cbn [Nat.eqb].
    + apply IH; [lia| |eauto]. intros b Hb. destruct (Nat.eq_dec b i) as [->|]; [|apply HB; lia]. unfold V. now rewrite (o48_type n O), E.
    + replace (S s - 1) with s by lia. destruct (o48_used n O i s E) as (Hp & Hnn & _).
      rewrite (idx_in _ s None) by (rewrite (o48_clen n O); auto). cbn [bind].
      destruct (nth s (n_children n) None) as [q|] eqn:Eq; [|congruence]. exists i, q. split; auto. split; [lia|]. split; [|intros; apply HB; lia].
      unfold V. now rewrite (o48_type n O), E.
Qed.

Lemma last256_greatest n : n_type n = Node256 -> length (n_children n) = 256 -> forall f, f <= 256 -> (forall b, f <= b -> V n b = None) -> (exists b, V n b <> None) ->
  exists b q, last256_loop n f = Ok (Some q) /\ b < 256 /\ V n b = Some q /\ forall b', b < b' -> V n b' = None.
Proof.
  intros Et HL. induction f as [|i IH]; intros Hf HB (b0 & HV); cbn [last256_loop].
  - exfalso. apply HV. apply HB. lia.
  - rewrite (idx_in _ i None) by lia. cbn [bind].
    assert (VE : V n i = nth i (n_children n) None) by (unfold V; now rewrite Et).
    destruct (nth i (n_children n) None) as [q|] eqn:E.
    + exists i, q. split; [reflexivity|]. split; [lia|]. split; [exact VE|]. intros; apply HB; lia.
    + apply IH; [lia| |eauto]. intros b Hb. destruct (Nat.eq_dec b i) as [->|]; [auto|apply HB; lia].
Qed.

Lemma ends_layout n : layout_ok n -> 0 < nchild n ->
  (exists b p, firstChild n = Ok (Some p) /\ b < 256 /\ V n b = Some p /\ (n_type n = Node48 \/ n_type n = Node256 -> forall b', b' < b -> V n b' = None)) /\
  (exists b p, lastChild n = Ok (Some p) /\ b < 256 /\ V n b = Some p /\ (n_type n = Node48 \/ n_type n = Node256 -> forall b', b < b' -> V n b' = None)).
Proof.
  intros L Hpos. destruct (firstChild_spec n L Hpos) as (b & p & E & HV).
  assert (HE : exists b, V n b <> None) by (exists b; congruence).
  assert (BIG : forall x, 256 <= x -> V n x = None) by (intros; now apply V_byte).
  assert (LB : forall x q, V n x = Some q -> x < 256).
  { intros x q X. destruct (Nat.lt_ge_cases x 256); auto. rewrite BIG in X by auto. discriminate. }
  destruct L as (Hn & Hc & L). unfold firstChild, lastChild in *. destruct (n_type n) eqn:Et; try contradiction.
  1,2: split; [exists b, p; split; auto; split; [eauto|]; split; auto; intros [|]; discriminate|];
    rewrite (small_count n L) in Hpos; pose proof (so_num n L) as LN; rewrite Et in LN; cbn [cap] in LN;
    replace ((n_num n + 255) mod 256) with (n_num n - 1) by (replace (n_num n + 255) with (n_num n - 1 + 1 * 256) by lia; rewrite Nat.mod_add, Nat.mod_small; lia);
    rewrite (idx_in _ (n_num n - 1) None) by (rewrite (so_clen n L), Et; cbn; lia);
    destruct (nth (n_num n - 1) (n_children n) None) as [q|] eqn:Eq; [|now apply (so_some n L) in Eq; [|lia]];
    exists (nth (n_num n - 1) (n_keys n) 0), q;
    assert (VQ : V n (nth (n_num n - 1) (n_keys n) 0) = Some q) by (apply V_small; auto; exists (n_num n - 1); repeat split; auto; lia);
    split; auto; split; [eauto|]; split; auto; intros [|]; discriminate.
  - split.
    + destruct (first48_least n L 256 0 _ eq_refl ltac:(intros; lia) E) as (b1 & q & X1 & X2 & X3 & X4). exists b1, q. rewrite E, X1. auto.
    + destruct (last48_greatest n L 256 (le_n _) BIG HE) as (b1 & q & X1 & X2 & X3 & X4). exists b1, q. auto.
  - split.
    + destruct (first256_least n Et L 256 0 _ eq_refl ltac:(intros; lia) E) as (b1 & q & X1 & X2 & X3 & X4). exists b1, q. rewrite E, X1. auto.
    + destruct (last256_greatest n Et L 256 (le_n _) BIG HE) as (b1 & q & X1 & X2 & X3 & X4). exists b1, q. auto.
Qed.

Lemma ends_none n : layout_ok n -> n_type n = Node4 -> nchild n = 0 -> lastChild n = Panic.
Proof.
  intros (Hn & Hc & L) Et E0. rewrite E0 in Hn. unfold lastChild. rewrite Et in *. cbn [Nat.modulo] in Hn. rewrite Hn.
  change ((0 mod 256 + 255) mod 256) with 255. unfold idx. rewrite (proj2 (nth_error_None _ _)); auto. rewrite (so_clen n L), Et. cbn. lia.
Qed.

Lemma ends_tree m a n : reachable m -> in_tree m a -> node_at m a n ->
  (0 < children_count n ->
    (exists b p, firstChild n = Ok (Some p) /\ b < 256 /\ child n b = Some p /\ (n_type n = Node48 \/ n_type n = Node256 -> forall b', b' < b -> child n b' = None)) /\
    (exists b p, lastChild n = Ok (Some p) /\ b < 256 /\ child n b = Some p /\ (n_type n = Node48 \/ n_type n = Node256 -> forall b', b < b' -> b' < 256 -> child n b' = None))) /\
  (children_count n = 0 -> lastChild n = Panic).
Proof.
  intros HR T (v & Hn). destruct (reach_rep m HR) as (r & A & h & H & M).
  destruct (in_tree_live _ _ _ _ H T) as (x & Hx). destruct (h_node _ _ _ H _ _ Hx) as (c & Hc & _ & R).
  unfold cell_at in Hc. rewrite Hn in Hc. inversion Hc; subst c. cbn [c_node] in R.
  rewrite (count_nchild _ _ _ R). pose proof (nr_layout _ _ _ R) as L.
  assert (CV : forall b, b < 256 -> child n b = V n b) by (intros b Hb; rewrite (child_V _ _ _ _ R Hb), (nr_V _ _ _ R); reflexivity).
  split.
  - intros P. destruct (ends_layout n L P) as ((b & p & X1 & X2 & X3 & X4) & (b' & p' & Y1 & Y2 & Y3 & Y4)). split.
    + exists b, p. split; auto. split; auto. rewrite (CV _ X2). split; auto. intros Z y Hy. rewrite CV by lia. auto.
    + exists b', p'. split; auto. split; auto. rewrite (CV _ Y2). split; auto. intros Z y Hy Hy'. rewrite CV by lia. auto.
  - intros Z. apply ends_none; auto. pose proof (nr_min _ _ _ R) as X. rewrite Z in X. pose proof (proj2 (proj2 L)) as L2. destruct (n_type n); auto; cbn in X; try lia; contradiction.
Qed.
