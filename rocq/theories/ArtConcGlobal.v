(** * ArtConcGlobal: the invariant of the whole system. *)
From Coq Require Import Permutation.
From Verif Require Import Base BitsModel BitsFacts VecModel VecProofs VecProofs2 ArtNode
  ArtNodeProofs ArtNodeProofs2 ArtNodeProofs3 ArtModel ArtSpec ArtTree ArtTree2 ArtRep ArtRep2
  ArtTree3 ArtSeq ArtMono ArtSeq2 ArtSeq3 ArtConc ArtConcHeap ArtConcInv ArtConcStep ArtConcStep2 ArtConcSpec.
Ltac Zify.zify_post_hook ::= Z.div_mod_to_equations.

Record LK (m : mem) (A : aheap) (th : nat -> pc) : Prop := {
  l_mod : forall n c, cell_at m n = Some c -> (c_ver c mod 4 = 0 \/ c_ver c mod 4 = 1 \/ c_ver c mod 4 = 2)%N;
  l_held : forall t n, In n (held (th t)) -> exists c, cell_at m n = Some c /\ (c_ver c mod 4 = 2)%N;
  l_ex : forall n c, cell_at m n = Some c -> (c_ver c mod 4 = 2)%N -> exists t, In n (held (th t));
  l_disj : forall t u n, In n (held (th t)) -> In n (held (th u)) -> t = u;
  l_nodup : forall t, NoDup (held (th t));
  l_doom : forall t n, In n (doomed (th t)) -> In n (held (th t)) /\ n <> 0 /\ A n = None;
  l_obs : forall n c, cell_at m n = Some c -> (c_ver c mod 4 = 1)%N -> n <> 0 /\ A n = None;
  l_dead : forall n c, cell_at m n = Some c -> n <> 0 -> A n = None -> (c_ver c mod 4 = 1)%N \/ exists t, In n (doomed (th t))
}.

Lemma LK_LI m A th : LK m A th -> LI m A.
Proof.
  intros K. constructor.
  - exact (l_mod _ _ _ K).
  - intros n c Hc N U HA. unfold unl in U. destruct (l_dead _ _ _ K n c Hc N HA) as [X|(t & X)]; [lia|].
    apply (l_doom _ _ _ K) in X as (X & _). destruct (l_held _ _ _ K _ _ X) as (c' & Hc' & V). assert (c' = c) by congruence. subst. lia.
  - intros c Hc V. apply (l_obs _ _ _ K _ _ Hc V). reflexivity.
Qed.

Lemma doomed_held p n : In n (doomed p) -> In n (held p).
Proof.
  destruct p; cbn; try contradiction. intros H. apply in_map_iff in H as ((x & b) & <- & H). apply filter_In in H as (H & _).
  apply in_map_iff. exists (x, b). auto.
Qed.

Section Step.
Context (m : mem) (r : nat) (A : aheap) (th : nat -> pc) (t : nat) (K : LK m A th).
Context (p' : pc) (m' : mem) (r' : nat) (A' : aheap).
Let th' := upd_thr th t p'.
Context (O : out (th t) m r A p' m' r' A').

Lemma thr_same : th' t = p'.
Proof. unfold th', upd_thr. now rewrite Nat.eqb_refl. Qed.
Lemma thr_other u : u <> t -> th' u = th u.
Proof. intros N. unfold th', upd_thr. now rewrite (proj2 (Nat.eqb_neq u t) N). Qed.

Lemma other_env u : u <> t -> env (held (th u)) m r A m' r' A'.
Proof.
  intros N. destruct O as [CM H1 H2|n c CM Hc U H1 H2 H3|n obs c CM Hc H1 H2|o m' r' A' H1 H2 H3 H4 FR H5 H6 H7 H8 H9].
  - apply env_refl.
  - apply env_lock; auto. intros X. destruct (l_held _ _ _ K _ _ X) as (c' & Hc' & V). assert (c' = c) by congruence. subst. unfold unl in U. lia.
  - assert (HN : ~ In n (held (th u))). { intros X. apply N. eapply (l_disj _ _ _ K); eauto. rewrite H1. left; auto. }
    constructor; auto; [|congruence]. intros x cx Hx. rewrite (cell_set_ver m n c) by auto. destruct (Nat.eqb_spec n x) as [<-|E].
    + assert (cx = c) by congruence. subst cx. eexists. split; [reflexivity|]. cbn [c_ver]. split; [lia|]. split; [destruct obs; lia|]. intros; contradiction.
    + exists cx. split; auto. split; [lia|]. auto.
  - constructor.
    + intros n c Hc. destruct (fr_cell _ _ _ _ _ _ _ _ FR n c Hc) as (c' & Hc' & V & _). exists c'. split; auto. split; [lia|]. split; [|auto].
      intros _ X. assert (HN : ~ In n (held (th t))).
      { intros Y. destruct X as [X|X].
        - destruct (l_held _ _ _ K _ _ Y) as (c2 & Hc2 & V2). assert (c2 = c) by congruence. subst. unfold unl in X. lia.
        - apply N. eapply (l_disj _ _ _ K); eauto. }
      destruct (fr_same _ _ _ _ _ _ _ _ FR n (cell_lt _ _ _ Hc) HN) as (E1 & E2). split; auto. congruence.
    + exact (fr_W _ _ _ _ _ _ _ _ FR).
    + exact (fr_dead _ _ _ _ _ _ _ _ FR).
    + exact (fr_root _ _ _ _ _ _ _ _ FR).
Qed.

Lemma LK_step : LK m' A' th'.
Proof.
  pose proof thr_same as TS. pose proof thr_other as TO. clearbody th'.
  destruct O as [CM H1 H2|n c CM Hc U H1 H2 H3|n obs c CM Hc H1 H2|o m' r' A' H1 H2 H3 H4 FR H5 H6 H7 H8 H9].
  - assert (HH : forall u, held (th' u) = held (th u)).
    { intros u. destruct (Nat.eq_dec u t) as [->|N]; [rewrite TS|rewrite TO by auto]; auto. }
    assert (HD : forall u, doomed (th' u) = doomed (th u)).
    { intros u. destruct (Nat.eq_dec u t) as [->|N]; [rewrite TS|rewrite TO by auto]; auto. }
    destruct K as [K1 K2 K3 K4 K5 K6 K7 K8]. constructor; auto.
    + intros u n. rewrite HH. apply K2.
    + intros n c Hc V. destruct (K3 n c Hc V) as (u & X). exists u. now rewrite HH.
    + intros u w n. rewrite !HH. apply K4.
    + intros u. rewrite HH. apply K5.
    + intros u n. rewrite HD, HH. apply K6.
    + intros n c Hc N HA. destruct (K8 n c Hc N HA) as [X|(u & X)]; auto. right. exists u. now rewrite HD.
  - (* lock *)
    assert (NH : forall u, ~ In n (held (th u))).
    { intros u X. destruct (l_held _ _ _ K _ _ X) as (c' & Hc' & V). assert (c' = c) by congruence. subst. unfold unl in U. lia. }
    assert (HH : forall u x, In x (held (th' u)) <-> In x (held (th u)) \/ (u = t /\ x = n)).
    { intros u x. destruct (Nat.eq_dec u t) as [->|N]; [rewrite TS|rewrite TO by auto].
      - split.
        + intros X. apply (Permutation_in _ H1) in X as [<-|X]; auto.
        + intros X. apply (Permutation_in _ (Permutation_sym H1)). destruct X as [X|(_ & ->)]; [right|left]; auto.
      - split; auto. intros [X|(X & _)]; auto. contradiction. }
    assert (HD : forall u, doomed (th' u) = doomed (th u)).
    { intros u. destruct (Nat.eq_dec u t) as [->|N]; [rewrite TS|rewrite TO by auto]; congruence. }
    destruct K as [K1 K2 K3 K4 K5 K6 K7 K8].
    assert (CV : forall x cx, cell_at (set_ver m n (c_ver c + 2)) x = Some cx ->
       (x = n /\ (c_ver cx mod 4 = 2)%N) \/ (x <> n /\ cell_at m x = Some cx)).
    { intros x cx. rewrite (cell_set_ver m n c) by auto. destruct (Nat.eqb_spec n x) as [<-|E]; [|right; auto].
      intros X; inversion X; subst. left. cbn [c_ver]. split; auto. unfold unl in U. lia. }
    constructor.
    + intros x cx Hx. destruct (CV x cx Hx) as [(_ & V)|(_ & X)]; eauto.
    + intros u x. rewrite HH. rewrite (cell_set_ver m n c) by auto. destruct (Nat.eqb_spec n x) as [<-|E].
      * intros _. eexists. split; [reflexivity|]. cbn [c_ver]. unfold unl in U. lia.
      * intros [X|(_ & X)]; [eauto|congruence].
    + intros x cx Hx V. destruct (CV x cx Hx) as [(-> & _)|(_ & X)].
      * exists t. apply HH. auto.
      * destruct (K3 x cx X V) as (u & Y). exists u. apply HH. auto.
    + intros u w x. rewrite !HH. intros [X|(-> & ->)] [Y|(-> & E)]; subst; eauto; exfalso; eapply NH; eauto.
    + intros u. destruct (Nat.eq_dec u t) as [->|N]; [rewrite TS|rewrite TO by auto; apply K5].
      eapply Permutation_NoDup; [apply Permutation_sym; eauto|]. constructor; auto.
    + intros u x. rewrite HD, HH. intros X. apply K6 in X as (X1 & X2 & X3). auto.
    + intros x cx Hx V. destruct (CV x cx Hx) as [(-> & V2)|(_ & X)]; [lia|eauto].
    + intros x cx Hx N HA. destruct (CV x cx Hx) as [(-> & V2)|(_ & X)].
      * exfalso. destruct (K8 n c Hc N HA) as [X|(u & X)]; [unfold unl in U; lia|]. apply K6 in X as (X & _). eapply NH; eauto.
      * destruct (K8 x cx X N HA) as [Y|(u & Y)]; auto. right. exists u. now rewrite HD.
  - (* unlock *)
    assert (ND : ~ In n (held p')). { pose proof (l_nodup _ _ _ K t) as X. rewrite H1 in X. now inversion X. }
    assert (HH : forall u x, In x (held (th' u)) <-> In x (held (th u)) /\ x <> n).
    { intros u x. destruct (Nat.eq_dec u t) as [->|N]; [rewrite TS, H1|rewrite TO by auto].
      - cbn [In]. split; [|intros ([X|X] & Y); auto; congruence]. intros X. split; auto. intros ->. contradiction.
      - split; [|tauto]. intros X. split; auto. intros ->. apply N. eapply (l_disj _ _ _ K); eauto. rewrite H1. left; auto. }
    destruct (l_held _ _ _ K t n) as (c' & Hc' & V0); [rewrite H1; left; auto|]. assert (c' = c) by congruence. subst c'.
    assert (HD : forall u x, In x (doomed (th' u)) <-> In x (doomed (th u)) /\ x <> n).
    { intros u x. destruct (Nat.eq_dec u t) as [->|N]; [rewrite TS, H2|rewrite TO by auto].
      - assert (Y : ~ In n (doomed p')) by (intros Y; apply ND; now apply doomed_held).
        destruct obs; cbn [In].
        + split; [|intros ([X|X] & Z); auto; congruence]. intros X. split; auto. intros ->. contradiction.
        + split; [|tauto]. intros X. split; auto. intros ->. contradiction.
      - split; [|tauto]. intros X. split; auto. intros ->. apply N. eapply (l_disj _ _ _ K); [apply doomed_held; eauto|]. rewrite H1. left; auto. }
    assert (CV : forall x cx, cell_at (set_ver m n (c_ver c + (if obs then 3 else 2))) x = Some cx ->
       (x = n /\ (c_ver cx mod 4 = if obs then 1 else 0)%N) \/ (x <> n /\ cell_at m x = Some cx)).
    { intros x cx. rewrite (cell_set_ver m n c) by auto. destruct (Nat.eqb_spec n x) as [<-|E]; [|right; auto].
      intros X; inversion X; subst. left. cbn [c_ver]. split; auto. destruct obs; lia. }
    assert (DN : if obs then n <> 0 /\ A n = None else n <> 0 -> A n <> None).
    { destruct obs.
      - apply (l_doom _ _ _ K t). rewrite H2. left; auto.
      - intros N HA. destruct (l_dead _ _ _ K n c Hc N HA) as [X|(u & X)]; [lia|].
        assert (u = t). { eapply (l_disj _ _ _ K); [apply doomed_held; eauto|]. rewrite H1. left; auto. } subst u.
        rewrite H2 in X. apply ND. now apply doomed_held. }
    destruct K as [K1 K2 K3 K4 K5 K6 K7 K8]. constructor.
    + intros x cx Hx. destruct (CV x cx Hx) as [(_ & V)|(_ & X)]; [destruct obs; auto|eauto].
    + intros u x. rewrite HH. intros (X & N). rewrite (cell_set_ver m n c) by auto. destruct (Nat.eqb_spec n x); [congruence|eauto].
    + intros x cx Hx V. destruct (CV x cx Hx) as [(-> & V2)|(N & X)]; [destruct obs; lia|].
      destruct (K3 x cx X V) as (u & Y). exists u. apply HH. auto.
    + intros u w x. rewrite !HH. intros (X & _) (Y & _). eauto.
    + intros u. destruct (Nat.eq_dec u t) as [->|N]; [rewrite TS|rewrite TO by auto; apply K5].
      pose proof (K5 t) as X. rewrite H1 in X. now inversion X.
    + intros u x. rewrite HD, HH. intros (X & N). apply K6 in X as (X1 & X2 & X3). auto.
    + intros x cx Hx V. destruct (CV x cx Hx) as [(-> & V2)|(N & X)]; [|eauto]. destruct obs; [exact DN|lia].
    + intros x cx Hx N HA. destruct (CV x cx Hx) as [(-> & V2)|(NE & X)].
      * destruct obs; [auto|]. exfalso. apply DN; auto.
      * destruct (K8 x cx X N HA) as [Y|(u & Y)]; auto. right. exists u. rewrite HD. auto.
  - (* commit *)
    assert (HH : forall u, held (th' u) = held (th u)).
    { intros u. destruct (Nat.eq_dec u t) as [->|N]; [rewrite TS|rewrite TO by auto]; auto. }
    assert (HD : forall u x, In x (doomed (th' u)) <-> In x (doomed (th u)) \/ (u = t /\ In x (doomed p'))).
    { intros u x. destruct (Nat.eq_dec u t) as [->|N]; [rewrite TS, H6; cbn; tauto|rewrite TO by auto]. tauto. }
    destruct K as [K1 K2 K3 K4 K5 K6 K7 K8].
    assert (CV : forall x cx, cell_at m' x = Some cx -> (exists c, cell_at m x = Some c /\ c_ver cx = c_ver c) \/
       (cell_at m x = None /\ mlen m <= x /\ c_ver cx = 0%N /\ A' x <> None)).
    { intros x cx Hx. destruct (cell_at m x) as [c|] eqn:E.
      - left. destruct (fr_cell _ _ _ _ _ _ _ _ FR x c E) as (c' & Hc' & V & _). exists c. split; auto. congruence.
      - right. assert (mlen m <= x) by (unfold cell_at in E; now apply nth_error_None in E). split; auto. split; auto.
        eapply (fr_new _ _ _ _ _ _ _ _ FR); eauto. }
    constructor.
    + intros x cx Hx. destruct (CV x cx Hx) as [(c & Hc & ->)|(_ & _ & -> & _)]; eauto.
    + intros u x. rewrite HH. intros X. destruct (K2 u x X) as (c & Hc & V). destruct (fr_cell _ _ _ _ _ _ _ _ FR x c Hc) as (c' & Hc' & V2 & _).
      exists c'. split; auto. congruence.
    + intros x cx Hx V. destruct (CV x cx Hx) as [(c & Hc & E)|(_ & _ & E & _)]; [|rewrite E in V; discriminate V]. rewrite E in V.
      destruct (K3 x c Hc V) as (u & X). exists u. now rewrite HH.
    + intros u w x. rewrite !HH. apply K4.
    + intros u. rewrite HH. apply K5.
    + intros u x. rewrite HD, HH. intros [X|(-> & X)].
      * apply K6 in X as (X1 & X2 & X3). split; auto. split; auto. destruct (K2 _ _ X1) as (c & Hc & _).
        apply (fr_dead _ _ _ _ _ _ _ _ FR); auto. eapply cell_lt; eauto.
      * exact (H7 x X).
    + intros x cx Hx V. destruct (CV x cx Hx) as [(c & Hc & E)|(_ & _ & E & _)]; [|rewrite E in V; discriminate V]. rewrite E in V.
      destruct (K7 x c Hc V) as (X1 & X2). split; auto. apply (fr_dead _ _ _ _ _ _ _ _ FR); auto. eapply cell_lt; eauto.
    + intros x cx Hx N HA. destruct (CV x cx Hx) as [(c & Hc & E)|(_ & _ & _ & X)]; [|contradiction]. rewrite E.
      destruct (A x) as [a|] eqn:Ex.
      * right. exists t. apply HD. right. split; auto. apply (fr_gone _ _ _ _ _ _ _ _ FR x a Ex). exact HA.
      * destruct (K8 x c Hc N Ex) as [Y|(u & Y)]; auto. right. exists u. rewrite HD. auto.
Qed.
End Step.
