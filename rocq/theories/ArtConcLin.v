(** * ArtConcLin: the invariant holds in every reachable state, and every history is
    linearizable. *)
From Coq Require Import Permutation.
From Verif Require Import Base BitsModel BitsFacts VecModel VecProofs VecProofs2 ArtNode
  ArtNodeProofs ArtNodeProofs2 ArtNodeProofs3 ArtModel ArtSpec ArtTree ArtTree2 ArtRep ArtRep2
  ArtTree3 ArtSeq ArtMono ArtSeq2 ArtSeq3 ArtConc ArtConcHeap ArtConcInv ArtConcStep ArtConcStep2 ArtConcSpec ArtConcGlobal.
Ltac Zify.zify_post_hook ::= Z.div_mod_to_equations.

(** What the map can have done for a goroutine by the time it is at [p]. *)
Definition allowed (p : pc) (S : seen) (x : sstat) : Prop :=
  match p with
  | PIdle => x = SIdle
  | PRet o r => x = SDone o r
  | PCrash o => x = SPend o
  | PUnlock o _ true => x = SDone o None
  | _ => match pc_op p with
         | None => False
         | Some o => x = SPend o \/
             match o with
             | OGet _ => exists y, S y /\ x = SDone o y
             | ODelete _ => S None /\ x = SDone o None
             | OPut _ _ => False
             end
         end
  end.

Record GI (h : list ev) (s : sys) (r : nat) (A : aheap) (S : nat -> seen) : Prop := {
  g_rep : crep (s_mem s) r A;
  g_lk : LK (s_mem s) A (s_thr s);
  g_thr : forall t, TI (s_mem s) r A (S t) (s_thr s t);
  g_seen : forall t o x, pc_op (s_thr s t) = Some o -> val A (op_key o) x -> S t x;
  g_fin : exists B, forall t, B <= t -> s_thr s t = PIdle;
  g_lin : forall st, (forall t, allowed (s_thr s t) (S t) (st t)) ->
    exists L, (forall k v, latest L k = Some v <-> contents A k v) /\ lin h L st
}.

Definition pend (o : op) (S : seen) (x : sstat) : Prop :=
  x = SPend o \/ match o with
             | OGet _ => exists y, S y /\ x = SDone o y
             | ODelete _ => S None /\ x = SDone o None
             | OPut _ _ => False
             end.
Definition crashed (p : pc) : Prop := match p with PCrash _ => True | _ => False end.

Lemma allowed_op p S x o : pc_op p = Some o -> ~ committed p -> ~ crashed p -> (allowed p S x <-> pend o S x).
Proof.
  intros E NC NX. unfold pend. destruct p; cbn in *; try contradiction; try discriminate; inversion E; subst; try reflexivity; try tauto.
  destruct done; [congruence|reflexivity].
Qed.

Lemma pend_mono o (S S' : seen) x : sub S S' -> pend o S x -> pend o S' x.
Proof. intros SS [X|X]; [left; auto|right]. destruct o; auto; [destruct X as (y & Y & Z); exists y|destruct X]; auto. Qed.

Lemma allowed_mono p (S S' : seen) x : sub S S' -> allowed p S x -> allowed p S' x.
Proof.
  intros SS HA. destruct (pc_op p) as [o|] eqn:E; [|destruct p; try discriminate; exact HA].
  assert (D : committed p \/ crashed p \/ (~ committed p /\ ~ crashed p)).
  { destruct p; cbn; try tauto. destruct done; [left; auto|right; right]. split; [discriminate|tauto]. }
  destruct D as [D|[D|(D1 & D2)]].
  - destruct p; cbn in D; try contradiction; [exact HA|]. subst done. exact HA.
  - destruct p; cbn in D; try contradiction. exact HA.
  - apply (allowed_op _ _ _ o) in HA; auto. apply (allowed_op _ _ _ o); auto. exact (pend_mono _ _ _ _ SS HA).
Qed.
Lemma allowed_split p (S S' : seen) x : allowed p S' x ->
  allowed p S x \/ exists o, pc_op p = Some o /\ ~ committed p /\ ~ crashed p /\ pend o S' x.
Proof.
  intros HA. destruct (pc_op p) as [o|] eqn:E; [|left; destruct p; try discriminate; exact HA].
  assert (D : committed p \/ crashed p \/ (~ committed p /\ ~ crashed p)).
  { destruct p; cbn; try tauto. destruct done; [left; auto|right; right]. split; [discriminate|tauto]. }
  destruct D as [D|[D|(D1 & D2)]].
  - left. destruct p; cbn in D; try contradiction; [exact HA|]. subst done. exact HA.
  - left. destruct p; cbn in D; try contradiction. exact HA.
  - right. exists o. apply (allowed_op _ _ _ o) in HA; auto.
Qed.

Lemma latest_None A L k : (forall k v, latest L k = Some v <-> contents A k v) -> absent A k -> latest L k = None.
Proof. intros HM HA. destruct (latest L k) as [v|] eqn:E; auto. exfalso. apply HM in E. exact (HA v E). Qed.
Lemma latest_val r A L k x : AInv r A -> (forall k v, latest L k = Some v <-> contents A k v) -> val A k x -> latest L k = x.
Proof. intros _ HM HV. destruct x as [v|]; [now apply HM|]. eapply latest_None; eauto. Qed.

(** A Get or an absent Delete may take effect without changing the tree. *)
Lemma lin_quiet r A h L st t o x st' : AInv r A -> (forall k v, latest L k = Some v <-> contents A k v) -> lin h L st -> st t = SPend o ->
  match o with OGet k => exists y, val A k y /\ x = SDone o y | ODelete k => val A k None /\ x = SDone o None | _ => False end ->
  changed st st' t x -> exists L', (forall k v, latest L' k = Some v <-> contents A k v) /\ lin h L' st'.
Proof.
  intros I HM HL HP HX HC. destruct o as [|k|k]; [contradiction| |].
  - destruct HX as (y & HV & ->). exists (OGet k :: L). split; [exact HM|]. eapply lin_op; eauto. cbn. erewrite latest_val; eauto.
  - destruct HX as (HV & ->). exists (ODelete k :: L). split.
    + intros k' v. cbn. destruct (beqb k k') eqn:E; [|apply HM]. apply beqb_eq in E. subst k'. split; [discriminate|]. intros X. exfalso. eapply HV; eauto.
    + eapply lin_op; eauto.
Qed.

Definition st_set (st : nat -> sstat) (t : nat) (x : sstat) : nat -> sstat := fun u => if Nat.eqb u t then x else st u.
Lemma st_eq st t x : st_set st t x t = x.
Proof. unfold st_set. now rewrite Nat.eqb_refl. Qed.
Lemma st_ne st t x u : u <> t -> st_set st t x u = st u.
Proof. intros H. unfold st_set. now rewrite (proj2 (Nat.eqb_neq u t) H). Qed.
Lemma st_back st t x : changed (st_set st t x) st t (st t).
Proof. split; auto. intros u H. now rewrite st_ne. Qed.

Lemma upd_eq th t p : upd_thr th t p t = p.
Proof. unfold upd_thr. now rewrite Nat.eqb_refl. Qed.
Lemma upd_ne th t p u : u <> t -> upd_thr th t p u = th u.
Proof. intros H. unfold upd_thr. now rewrite (proj2 (Nat.eqb_neq u t) H). Qed.

Lemma out_held p m r A p' m' r' A' : out p m r A p' m' r' A' -> (r' = r /\ A' = A /\ cmt p p') \/ exists o, effect o A A' /\ pc_op p = Some o /\ ~ committed p /\ exists us, p' = PUnlock o us true.
Proof. intros O. destruct O; auto. right. exists o. auto. Qed.

Lemma effect_latest o A A' L : effect o A A' -> (forall k v, latest L k = Some v <-> contents A k v) ->
  forall k v, latest (o :: L) k = Some v <-> contents A' k v.
Proof.
  intros E HM k v. destruct o as [k0 v0|k0|k0]; cbn in *; [|contradiction|].
  - destruct E as (E1 & E2). destruct (beqb k0 k) eqn:EB.
    + apply beqb_eq in EB. subst k. rewrite E1. split; intros X; [inversion X; auto|subst; auto].
    + apply beqb_neq in EB. rewrite E2 by congruence. apply HM.
  - destruct E as (E1 & E2). destruct (beqb k0 k) eqn:EB.
    + apply beqb_eq in EB. subst k. split; [discriminate|]. intros X. exfalso. eapply E1; eauto.
    + apply beqb_neq in EB. rewrite E2 by congruence. apply HM.
Qed.

Lemma GI_init : GI [] init 1 (aset (fun _ => None) 1 (Some (mkA [] 0 None cnone))) (fun _ _ => True).
Proof.
  pose proof hrep_New as H. constructor; cbn [s_mem s_thr init]; auto.
  - constructor.
    + apply H. + apply H. + apply H.
    + intros n c. unfold cell_at, New. cbn [m_cells]. destruct n as [|[|n]]; cbn; intros X; inversion X; subst; cbn; [tauto| |destruct n; discriminate].
      split; discriminate.
    + destruct (h_dummy _ _ _ H) as (c & Hc & _). eauto.
    + intros n a Ha. destruct (h_node _ _ _ H n a Ha) as (c & Hc & _ & R). eauto.
  - assert (C0 : forall n c, cell_at New n = Some c -> c_ver c = 0%N /\ (n = 0 \/ n = 1)).
    { intros n c. unfold cell_at, New. cbn [m_cells]. destruct n as [|[|n]]; cbn; intros X; inversion X; subst; auto. destruct n; discriminate. }
    constructor; cbn [held doomed]; try (intros; contradiction).
    + intros n c Hc. destruct (C0 n c Hc) as (-> & _). left. reflexivity.
    + intros n c Hc V. destruct (C0 n c Hc) as (E & _). rewrite E in V. discriminate V.
    + intros _. constructor.
    + intros n c Hc V. destruct (C0 n c Hc) as (E & _). rewrite E in V. discriminate V.
    + intros n c Hc N HA. destruct (C0 n c Hc) as (E & [X|X]); subst; [congruence|]. rewrite aset_eq in HA. discriminate.
  - intros t. exact Logic.I.
  - exists 0. auto.
  - intros st Hst. exists []. split.
    + intros k v. split; [discriminate|]. intros X. exfalso. exact (contents_New _ _ X).
    + apply lin_init. exact Hst.
Qed.

Lemma LK_ext m A th th' : (forall u, held (th' u) = held (th u)) -> (forall u, doomed (th' u) = doomed (th u)) -> LK m A th -> LK m A th'.
Proof.
  intros HH HD [K1 K2 K3 K4 K5 K6 K7 K8]. constructor; auto.
  - intros u n. rewrite HH. apply K2.
  - intros n c Hc V. destruct (K3 n c Hc V) as (u & X). exists u. now rewrite HH.
  - intros u w n. rewrite !HH. apply K4.
  - intros u. rewrite HH. apply K5.
  - intros u n. rewrite HD, HH. apply K6.
  - intros n c Hc N HA. destruct (K8 n c Hc N HA) as [X|(u & X)]; auto. right. exists u. now rewrite HD.
Qed.

Lemma GI_call h s r A S t o : GI h s r A S -> s_thr s t = PIdle -> valid_op o ->
  GI (h ++ [ECall t o]) (mkSys (s_mem s) (upd_thr (s_thr s) t (PStart o))) r A
     (fun u => if Nat.eqb u t then (fun x => val A (op_key o) x) else S u).
Proof.
  intros G HT VO. constructor; cbn [s_mem s_thr].
  - exact (g_rep _ _ _ _ _ G).
  - assert (O : out (s_thr s t) (s_mem s) r A (PStart o) (s_mem s) r A).
    { rewrite HT. apply out_pure; auto. split; intros []. }
    exact (LK_step _ _ _ _ _ (g_lk _ _ _ _ _ G) _ _ _ _ O).
  - intros u. destruct (Nat.eq_dec u t) as [->|N].
    + rewrite upd_eq. exact VO.
    + rewrite upd_ne by auto. rewrite (proj2 (Nat.eqb_neq u t) N). apply (g_thr _ _ _ _ _ G).
  - intros u o' x. destruct (Nat.eq_dec u t) as [->|N].
    + rewrite upd_eq, Nat.eqb_refl. cbn. intros X; inversion X; subst. auto.
    + rewrite upd_ne by auto. rewrite (proj2 (Nat.eqb_neq u t) N). apply (g_seen _ _ _ _ _ G).
  - destruct (g_fin _ _ _ _ _ G) as (B & HB). exists (Nat.max B (Datatypes.S t)). intros u Hu. rewrite upd_ne by lia. apply HB. lia.
  - intros st Hst. destruct (g_lin _ _ _ _ _ G (st_set st t SIdle)) as (L & HM & HL).
    { intros u. destruct (Nat.eq_dec u t) as [->|N].
      - rewrite st_eq, HT. reflexivity.
      - rewrite st_ne by auto. specialize (Hst u). rewrite upd_ne in Hst by auto. rewrite (proj2 (Nat.eqb_neq u t) N) in Hst. exact Hst. }
    pose proof (lin_call h L _ t o (st_set st t (SPend o)) HL (st_eq _ _ _)) as HL2.
    assert (HL3 : lin (h ++ [ECall t o]) L (st_set st t (SPend o))).
    { apply HL2. split; [apply st_eq|]. intros u N. now rewrite !st_ne. }
    specialize (Hst t). rewrite upd_eq, Nat.eqb_refl in Hst. cbn in Hst.
    destruct Hst as [X|X].
    + exists L. split; auto. eapply lin_call; [exact HL|apply st_eq|]. rewrite <- X. apply st_back.
    + eapply (lin_quiet r A _ L (st_set st t (SPend o)) t o (st t)); eauto; [exact (k_inv _ _ _ (g_rep _ _ _ _ _ G))|apply st_eq|destruct o; exact X|apply st_back].
Qed.

Lemma GI_ret h s r A S t o x : GI h s r A S -> s_thr s t = PRet o x ->
  GI (h ++ [ERet t x]) (mkSys (s_mem s) (upd_thr (s_thr s) t PIdle)) r A S.
Proof.
  intros G HT. constructor; cbn [s_mem s_thr].
  - exact (g_rep _ _ _ _ _ G).
  - eapply LK_ext; [| |exact (g_lk _ _ _ _ _ G)]; intros u; destruct (Nat.eq_dec u t) as [->|N];
      try (rewrite upd_eq, HT; reflexivity); now rewrite upd_ne.
  - intros u. destruct (Nat.eq_dec u t) as [->|N]; [rewrite upd_eq; exact Logic.I|rewrite upd_ne by auto]. apply (g_thr _ _ _ _ _ G).
  - intros u o' y. destruct (Nat.eq_dec u t) as [->|N]; [rewrite upd_eq; discriminate|rewrite upd_ne by auto]. apply (g_seen _ _ _ _ _ G).
  - destruct (g_fin _ _ _ _ _ G) as (B & HB). exists (Nat.max B (Datatypes.S t)). intros u Hu. rewrite upd_ne by lia. apply HB. lia.
  - intros st Hst. destruct (g_lin _ _ _ _ _ G (st_set st t (SDone o x))) as (L & HM & HL).
    { intros u. destruct (Nat.eq_dec u t) as [->|N].
      - rewrite st_eq, HT. reflexivity.
      - rewrite st_ne by auto. specialize (Hst u). rewrite upd_ne in Hst by auto. exact Hst. }
    exists L. split; auto. eapply lin_ret; [exact HL|apply st_eq|]. specialize (Hst t). rewrite upd_eq in Hst. cbn in Hst. rewrite <- Hst. apply st_back.
Qed.

(** A step that does not commit. *)
Lemma allowed_back p p' S x o : cmt p p' -> pc_op p' = pc_op p -> ret_ok S p p' -> ~ crashed p ->
  (forall o y, p <> PRet o y) -> (committed p -> forall o y, p' = PRet o y -> y = None) ->
  pc_op p = Some o -> allowed p' S x -> allowed p S x.
Proof.
  intros (C1 & C2) HO HR NX NR CN EO HA.
  assert (DEC : committed p \/ ~ committed p).
  { destruct p; cbn; try tauto. destruct done; [left|right]; congruence. }
  destruct DEC as [CP|NC].
  - specialize (C1 CP). specialize (CN CP). destruct p; cbn in CP; try contradiction; [exfalso; eapply NR; eauto|]. subst done. cbn in *. inversion EO; subst o0.
    destruct p'; cbn in C1; try contradiction; cbn in HO; inversion HO; subst.
    + cbn in HA. now rewrite (CN o r eq_refl) in HA.
    + exact HA.
  - rewrite (allowed_op p S x o) by auto. rewrite EO in HO. destruct p'; cbn in HO; try discriminate; inversion HO; subst; try exact HA.
    + left. exact HA.
    + cbn in HA. subst x. destruct (HR o r eq_refl) as [(X & _)|X]; [contradiction|]. right. destruct o; [contradiction|exists r; auto|].
      destruct X as (-> & X). auto.
    + destruct done; [|exact HA]. exfalso. destruct (C2 eq_refl) as [X|(? & ? & X)]; [contradiction|discriminate].
Qed.

Lemma tstep_committed first nd m p m' p' o y : tstep first nd m p = SGo m' p' -> committed p -> p' = PRet o y -> y = None.
Proof.
  destruct p; cbn [committed]; try contradiction; [discriminate|]. intros H -> ->. cbn [tstep] in H. destruct us as [|(n, b) us].
  - apply go_inv in H as (_ & H). inversion H. reflexivity.
  - unfold vunlock in H. apply lift_inv in H as [(w & _ & H)|(_ & _ & H)]; discriminate H.
Qed.
Lemma tstep_live first nd m p m' p' : tstep first nd m p = SGo m' p' -> ~ crashed p /\ (forall o y, p <> PRet o y) /\ exists o, pc_op p = Some o.
Proof. destruct p; cbn; try discriminate; intros _; (split; [intros []|]); (split; [discriminate|]); eauto. Qed.

Section Tau.
Context (h : list ev) (s : sys) (r : nat) (A : aheap) (S : nat -> seen) (G : GI h s r A S).
Context (t : nat) (first : bool) (nd : node) (m' : mem) (p' : pc).
Context (RD : reads_ok (s_mem s) (s_thr s t) nd) (ST : tstep first nd (s_mem s) (s_thr s t) = SGo m' p').

Definition S' (A' : aheap) (u : nat) : seen := fun x => S u x \/ exists o, pc_op (s_thr s u) = Some o /\ val A' (op_key o) x.

Lemma GI_tau : exists r' A', GI (h ++ [ETau t]) (mkSys m' (upd_thr (s_thr s) t p')) r' A' (S' A').
Proof.
  pose proof (g_rep _ _ _ _ _ G) as K. pose proof (g_lk _ _ _ _ _ G) as LL.
  destruct (tstep_ok (s_mem s) r A K (LK_LI _ _ _ LL) (S t) (s_thr s t) (g_thr _ _ _ _ _ G t)
     (fun o x => g_seen _ _ _ _ _ G t o x) first nd m' p' RD ST) as (r' & A' & O & K' & T' & HO & HR).
  exists r', A'. constructor; cbn [s_mem s_thr].
  - exact K'.
  - exact (LK_step _ _ _ _ _ LL _ _ _ _ O).
  - intros u. destruct (Nat.eq_dec u t) as [->|N].
    + rewrite upd_eq. eapply TI_st; [apply env_refl| |exact T']. intros x X. left. exact X.
    + rewrite upd_ne by auto. eapply TI_st; [eapply other_env; eauto| |apply (g_thr _ _ _ _ _ G)]. intros x X. left. exact X.
  - intros u o x HP HV. right. exists o. split; auto. destruct (Nat.eq_dec u t) as [->|N].
    + rewrite upd_eq in HP. congruence.
    + rewrite upd_ne in HP by auto. exact HP.
  - destruct (g_fin _ _ _ _ _ G) as (B & HB). exists (Nat.max B (Datatypes.S t)). intros u Hu. rewrite upd_ne by lia. apply HB. lia.
  - destruct (tstep_live _ _ _ _ _ _ ST) as (NX & NR & o & EO).
    destruct (out_held _ _ _ _ _ _ _ _ O) as [(-> & -> & CM)|(o' & EF & EO2 & NC & us & ->)].
    + intros st Hst. destruct (g_lin _ _ _ _ _ G st) as (L & HM & HL); [|exists L; split; auto; now apply lin_tau].
      intros u. specialize (Hst u).
      assert (SU : sub (S' A u) (S u)).
      { intros x [X|(o2 & E2 & X)]; auto. eapply (g_seen _ _ _ _ _ G); eauto. }
      destruct (Nat.eq_dec u t) as [->|N].
      * rewrite upd_eq in Hst. eapply allowed_mono; [exact SU|]. eapply allowed_back; eauto; [|intros; eapply tstep_committed; eauto].
        intros o2 x X. destruct (HR o2 x X) as [Y|Y]; auto. right. destruct o2; auto; [left; auto|destruct Y; split; auto; left; auto].
      * rewrite upd_ne in Hst by auto. eapply allowed_mono; eauto.
    + assert (o' = o) by congruence. subst o'. destruct (g_fin _ _ _ _ _ G) as (B & HB).
      assert (Q : forall n st, st t = SDone o None ->
         (forall u, u <> t -> u < n -> allowed (s_thr s u) (S' A' u) (st u)) ->
         (forall u, u <> t -> n <= u -> allowed (s_thr s u) (S u) (st u)) ->
         exists L, (forall k v, latest L k = Some v <-> contents A' k v) /\ lin h L st).
      { induction n as [|n IH]; intros st E1 E2 E3.
        - destruct (g_lin _ _ _ _ _ G (st_set st t (SPend o))) as (L & HM & HL).
          { intros u. destruct (Nat.eq_dec u t) as [->|N]; [|rewrite st_ne by auto; apply E3; auto; lia].
            rewrite st_eq. rewrite (allowed_op _ _ _ o) by auto. left. reflexivity. }
          exists (o :: L). split; [now apply (effect_latest o A A' L)|]. eapply lin_op; [exact HL|apply st_eq|].
          replace (answer L o) with (@None bytes) by (destruct o; auto; contradiction). rewrite <- E1. apply st_back.
        - destruct (Nat.eq_dec n t) as [->|N]; [apply IH; [exact E1| |]; intros u X1 X2; [apply E2|apply E3]; auto; lia|].
          assert (KEEP : allowed (s_thr s n) (S n) (st n) -> exists L, (forall k v, latest L k = Some v <-> contents A' k v) /\ lin h L st).
          { intros X. apply IH; auto. intros u X1 X2. destruct (Nat.eq_dec u n) as [->|N2]; auto. apply E3; auto. lia. }
          pose proof (E2 n N ltac:(lia)) as X.
          destruct (allowed_split _ (S n) (S' A' n) _ X) as [Y|(o2 & EO3 & NC2 & NX2 & Y)]; [auto|].
          destruct (IH (st_set st n (SPend o2))) as (L & HM & HL).
          { rewrite st_ne by auto. exact E1. }
          { intros u X1 X2. rewrite st_ne by lia. apply E2; auto. }
          { intros u X1 X2. destruct (Nat.eq_dec u n) as [->|N2].
            - rewrite st_eq. rewrite (allowed_op _ _ _ o2) by auto. left. reflexivity.
            - rewrite st_ne by auto. apply E3; auto. lia. }
          destruct Y as [Y|Y].
          + apply KEEP. rewrite Y, (allowed_op _ _ _ o2) by auto. left. reflexivity.
          + assert (Z : (pend o2 (S n) (st n)) \/ match o2 with OGet k => exists y, val A' k y /\ st n = SDone o2 y | ODelete k => val A' k None /\ st n = SDone o2 None | _ => False end).
            { destruct o2 as [|k|k]; [contradiction| |].
              - destruct Y as (y & [Y|(o3 & E4 & Y)] & EY).
                + left. right. eauto.
                + right. exists y. split; auto. assert (o3 = OGet k) by congruence. now subst.
              - destruct Y as ([Y|(o3 & E4 & Y)] & EY).
                + left. right. eauto.
                + right. split; auto. assert (o3 = ODelete k) by congruence. now subst. }
            destruct Z as [Z|Z]; [apply KEEP; now rewrite (allowed_op _ _ _ o2) by auto|].
            eapply (lin_quiet r' A' h L _ n o2 (st n)); eauto; [exact (k_inv _ _ _ K')|apply st_eq|apply st_back]. }
      intros st Hst. destruct (Q B st) as (L & HM & HL); [| | |exists L; split; auto; now apply lin_tau].
      * specialize (Hst t). rewrite upd_eq in Hst. exact Hst.
      * intros u N _. specialize (Hst u). now rewrite upd_ne in Hst by auto.
      * intros u N HU. specialize (Hst u). rewrite upd_ne in Hst by auto. rewrite (HB u HU) in *. exact Hst.
Qed.
End Tau.

Theorem GI_exec h s : exec h s -> exists r A S, GI h s r A S.
Proof.
  intros E. induction E as [|h s e s' E (r & A & S & G) ST].
  - eexists _, _, _. apply GI_init.
  - destruct ST as [t o HT VO|t o x HT|t first nd m' p' RD ST].
    + eexists _, _, _. eapply GI_call; eauto.
    + eexists _, _, _. eapply GI_ret; eauto.
    + destruct (GI_tau h s r A S G t first nd m' p' RD ST) as (r' & A' & G'). eexists _, _, _. exact G'.
Qed.

