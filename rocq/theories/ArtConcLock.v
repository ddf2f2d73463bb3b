(** * ArtConcLock: mutual exclusion, stability of unlocked nodes, absence of deadlock. *)
From Coq Require Import Permutation Relations.
From Verif Require Import Base BitsModel BitsFacts VecModel VecProofs VecProofs2 ArtNode
  ArtNodeProofs ArtNodeProofs2 ArtNodeProofs3 ArtModel ArtSpec ArtTree ArtTree2 ArtRep ArtRep2
  ArtTree3 ArtSeq ArtMono ArtSeq2 ArtSeq3 ArtConc ArtConcHeap ArtConcInv ArtConcStep ArtConcStep2 ArtConcSpec ArtConcGlobal ArtConcLin.
Ltac Zify.zify_post_hook ::= Z.div_mod_to_equations.

Lemma oexec_exec h s ow : oexec h s ow -> exec h s.
Proof. intros E. induction E; [constructor|econstructor; eauto]. Qed.
Lemma exec_oexec h s : exec h s -> exists ow, oexec h s ow.
Proof.
  intros E. induction E as [|h s e s' E (ow & O) ST]; [eexists; constructor|]. eexists. eapply oexec_step; [exact O|exact ST|].
  intros n. reflexivity.
Qed.

(** One step, seen from the memory. *)
Inductive seff (s : sys) (e : ev) (s' : sys) : Prop :=
  | se_call t o : e = ECall t o -> s_thr s t = PIdle -> s' = mkSys (s_mem s) (upd_thr (s_thr s) t (PStart o)) -> seff s e s'
  | se_ret t o x : e = ERet t x -> s_thr s t = PRet o x -> s' = mkSys (s_mem s) (upd_thr (s_thr s) t PIdle) -> seff s e s'
  | se_tau t r A p' m' r' A' : e = ETau t -> crep (s_mem s) r A -> crep m' r' A' -> LK (s_mem s) A (s_thr s) ->
      out (s_thr s t) (s_mem s) r A p' m' r' A' -> s' = mkSys m' (upd_thr (s_thr s) t p') -> seff s e s'.

Lemma step_seff h s e s' : exec h s -> step s e s' -> seff s e s'.
Proof.
  intros E ST. destruct (GI_exec h s E) as (r & A & S & G). destruct ST as [t o HT VO|t o x HT|t first nd m' p' RD ST].
  - eapply se_call; eauto.
  - eapply se_ret; eauto.
  - pose proof (g_rep _ _ _ _ _ G) as K. pose proof (g_lk _ _ _ _ _ G) as LL.
    destruct (tstep_ok (s_mem s) r A K (LK_LI _ _ _ LL) (S t) (s_thr s t) (g_thr _ _ _ _ _ G t)
       (fun o x => g_seen _ _ _ _ _ G t o x) first nd m' p' RD ST) as (r' & A' & O & K' & _).
    eapply se_tau; eauto.
Qed.

Lemma locked_mod v : (v mod 4 = 0 \/ v mod 4 = 1 \/ v mod 4 = 2)%N -> (locked v = true <-> (v mod 4 = 2)%N).
Proof.
  intros M. pose proof (mod4_bits v) as E. destruct (locked v), (obsolete v); cbn in E; split; intros X; auto; try discriminate; lia.
Qed.

(** ** C11 *)
Lemma lockbit_held s r A n : crep (s_mem s) r A -> LK (s_mem s) A (s_thr s) -> (lockbit s n = true <-> exists t, In n (held (s_thr s t))).
Proof.
  intros K LL. unfold lockbit. change (cell_of s n) with (cell_at (s_mem s) n). destruct (cell_at (s_mem s) n) as [c|] eqn:Hc.
  - rewrite (locked_mod _ (l_mod _ _ _ LL _ _ Hc)). split; [apply (l_ex _ _ _ LL n c Hc)|]. intros (t & X).
    destruct (l_held _ _ _ LL _ _ X) as (c' & Hc' & V). congruence.
  - split; [discriminate|]. intros (t & X). destruct (l_held _ _ _ LL _ _ X) as (c' & Hc' & V). congruence.
Qed.

Lemma owner_held h s ow : oexec h s ow -> forall n t, ow n = Some t <-> In n (held (s_thr s t)).
Proof.
  intros E. induction E as [|h s ow e s' ow' E IH ST HO]; [intros n t; cbn; split; [discriminate|contradiction]|].
  intros n t. rewrite HO. clear HO. pose proof (oexec_exec _ _ _ E) as E1.
  assert (E2 : exec (h ++ [e]) s') by (econstructor; eauto).
  destruct (GI_exec _ _ E1) as (r & A & S & G). destruct (GI_exec _ _ E2) as (r' & A' & S' & G').
  pose proof (lockbit_held s r A n (g_rep _ _ _ _ _ G) (g_lk _ _ _ _ _ G)) as B.
  pose proof (lockbit_held s' r' A' n (g_rep _ _ _ _ _ G') (g_lk _ _ _ _ _ G')) as B'.
  pose proof (l_disj _ _ _ (g_lk _ _ _ _ _ G)) as DJ. pose proof (l_disj _ _ _ (g_lk _ _ _ _ _ G')) as DJ'.
  assert (OTHER : forall u, u <> ev_thread e -> held (s_thr s' u) = held (s_thr s u)).
  { intros u N. destruct ST; cbn [s_thr ev_thread] in *; now rewrite upd_ne. }
  destruct (lockbit s n) eqn:E3, (lockbit s' n) eqn:E4.
  - (* locked before and after: the holder keeps it *)
    rewrite IH. destruct (proj1 B eq_refl) as (u & Hu). destruct (proj1 B' eq_refl) as (u' & Hu').
    assert (u' = u).
    { destruct (step_seff _ _ _ _ E1 ST) as [t0 o EE HT ->|t0 o x EE HT ->|t0 r0 A0 p0 m0 r1 A1 EE K0 K1 LL0 O ->]; subst e; cbn [s_mem s_thr ev_thread] in *.
      - destruct (Nat.eq_dec u' t0) as [->|N]; [rewrite upd_eq in Hu'; contradiction|]. rewrite OTHER in Hu' by auto. eapply DJ; eauto.
      - destruct (Nat.eq_dec u' t0) as [->|N]; [rewrite upd_eq in Hu'; contradiction|]. rewrite OTHER in Hu' by auto. eapply DJ; eauto.
      - destruct (Nat.eq_dec u' t0) as [->|N]; [|rewrite OTHER in Hu' by auto; eapply DJ; eauto].
        rewrite upd_eq in Hu'. destruct O as [CM H1 H2|x c CM Hc U H1 H2 H3|x obs c CM Hc H1 H2|o m2 r2 A2 H1 H2 H3 H4 FR H5 H6 H7 H8 H9].
        + rewrite H1 in Hu'. eapply DJ; eauto.
        + apply (Permutation_in _ H1) in Hu' as [<-|Y]; [|eapply DJ; eauto].
          exfalso. destruct (l_held _ _ _ LL0 _ _ Hu) as (c' & Hc' & V). assert (c' = c) by congruence. subst. unfold unl in U. lia.
        + eapply DJ; [|exact Hu]. rewrite H1. right. exact Hu'.
        + rewrite H5 in Hu'. eapply DJ; eauto. }
    subst u'. split; intros X.
    + assert (t = u) by (eapply DJ; eauto). now subst.
    + assert (t = u) by (eapply DJ'; eauto). now subst.
  - (* released *)
    split; [discriminate|]. intros X. exfalso. apply eq_true_false_abs with false; auto. apply B'. eauto.
  - (* taken *)
    destruct (proj1 B' eq_refl) as (u & Hu). assert (u = ev_thread e).
    { destruct (Nat.eq_dec u (ev_thread e)) as [|N]; auto. rewrite OTHER in Hu by auto. exfalso. assert (false = true) by (apply B; eauto). discriminate. }
    subst u. split; intros X; [inversion X; subst; auto|]. f_equal. eapply DJ'; eauto.
  - split; intros X; [apply IH in X|]; exfalso.
    + assert (false = true) by (apply B; eauto). discriminate.
    + assert (false = true) by (apply B'; eauto). discriminate.
Qed.

Theorem one_writer h s ow e s' : oexec h s ow -> step s e s' ->
  (forall n, lockbit s n = true <-> ow n <> None) /\
  (forall n c, cell_of s n = Some c -> exists c', cell_of s' n = Some c' /\
     (c_ver c' <> c_ver c ->
        (lockbit s n = false /\ lockbit s' n = true /\ c_ver c' = (c_ver c + 2)%N) \/
        (ow n = Some (ev_thread e) /\ lockbit s' n = false)) /\
     (c_node c' <> c_node c -> ow n = Some (ev_thread e) /\ lockbit s' n = true)) /\
  (m_root (s_mem s') <> m_root (s_mem s) -> ow 0 = Some (ev_thread e)).
Proof.
  intros E ST. pose proof (oexec_exec _ _ _ E) as E1. pose proof (owner_held _ _ _ E) as OH.
  destruct (GI_exec _ _ E1) as (r & A & S & G). pose proof (g_rep _ _ _ _ _ G) as K. pose proof (g_lk _ _ _ _ _ G) as LL.
  assert (E2 : exec (h ++ [e]) s') by (econstructor; eauto).
  destruct (GI_exec _ _ E2) as (r' & A' & S' & G').
  split.
  { intros n. rewrite (lockbit_held s r A n K LL). split.
    - intros (t & X). apply OH in X. congruence.
    - intros X. destruct (ow n) as [t|] eqn:EO; [|congruence]. exists t. now apply OH. }
  pose proof (fun n => lockbit_held s' r' A' n (g_rep _ _ _ _ _ G') (g_lk _ _ _ _ _ G')) as B'.
  assert (BF : forall n, lockbit s' n = false <-> ~ exists t, In n (held (s_thr s' t))).
  { intros n. rewrite <- B'. destruct (lockbit s' n); split; congruence. }
  destruct (step_seff _ _ _ _ E1 ST) as [t0 o EE HT ->|t0 o x EE HT ->|t0 r0 A0 p0 m0 r1 A1 EE K0 K1 LL0 O ->]; subst e; cbn [s_mem s_thr ev_thread] in *.
  - split; [|congruence]. intros n c Hc. exists c. split; [exact Hc|]. split; congruence.
  - split; [|congruence]. intros n c Hc. exists c. split; [exact Hc|]. split; congruence.
  - pose proof (LK_step _ _ _ _ t0 LL0 _ _ _ _ O) as LL1.
    destruct O as [CM H1 H2|x c0 CM Hc0 U H1 H2 H3|x obs c0 CM Hc0 H1 H2|o m2 r2 A2 H1 H2 H3 H4 FR H5 H6 H7 H8 H9].
    + split; [|congruence]. intros n c Hc. exists c. split; [exact Hc|]. split; congruence.
    + split; [|rewrite (set_ver_eq _ _ _ _ Hc0); cbn; congruence].
      intros n c Hc. unfold cell_of in *. cbn [s_mem]. change (nth_error (m_cells (set_ver (s_mem s) x (c_ver c0 + 2))) n) with (cell_at (set_ver (s_mem s) x (c_ver c0 + 2)) n).
      rewrite (cell_set_ver _ _ c0) by auto. destruct (Nat.eqb_spec x n) as [<-|N].
      * assert (c = c0) by (unfold cell_at in *; congruence). subst c. eexists. split; [reflexivity|]. cbn [c_ver c_node]. split; [|congruence]. intros _. left.
        unfold lockbit, cell_of. cbn [s_mem]. change (nth_error (m_cells (set_ver (s_mem s) x (c_ver c0 + 2))) x) with (cell_at (set_ver (s_mem s) x (c_ver c0 + 2)) x).
        rewrite (cell_set_ver _ _ c0) by auto. rewrite Nat.eqb_refl. rewrite Hc. cbn [c_ver]. split; [apply (unl_locked _ U)|]. split; auto.
        apply locked_mod; unfold unl in U; lia.
      * exists c. split; [exact Hc|]. split; congruence.
    + split; [|rewrite (set_ver_eq _ _ _ _ Hc0); cbn; congruence].
      intros n c Hc. unfold cell_of in *. cbn [s_mem]. 
      match goal with |- context[nth_error (m_cells ?M) n] => change (nth_error (m_cells M) n) with (cell_at M n) end.
      rewrite (cell_set_ver _ _ c0) by auto. destruct (Nat.eqb_spec x n) as [<-|N].
      * assert (c = c0) by (unfold cell_at in *; congruence). subst c. eexists. split; [reflexivity|]. cbn [c_ver c_node]. split; [|congruence]. intros _. right.
        assert (HI : In x (held (s_thr s t0))) by (rewrite H1; left; auto).
        split; [apply OH; exact HI|]. apply BF. intros (u & X). destruct (Nat.eq_dec u t0) as [->|N].
        -- rewrite upd_eq in X. pose proof (l_nodup _ _ _ LL0 t0) as ND. rewrite H1 in ND. now inversion ND.
        -- rewrite upd_ne in X by auto. apply N. eapply (l_disj _ _ _ LL0); eauto.
      * exists c. split; [exact Hc|]. split; congruence.
    + split.
      * intros n c Hc. destruct (fr_cell _ _ _ _ _ _ _ _ FR n c Hc) as (c' & Hc' & V & _). exists c'. split; [exact Hc'|]. split; [congruence|].
        intros NE. destruct (in_dec Nat.eq_dec n (held (s_thr s t0))) as [HI|HI].
        -- split; [now apply OH|]. apply B'. exists t0. rewrite upd_eq, H5. exact HI.
        -- exfalso. destruct (fr_same _ _ _ _ _ _ _ _ FR n (cell_lt _ _ _ Hc) HI) as (E3 & _). unfold cell_of, cell_at in *. congruence.
      * intros NE. rewrite (k_root _ _ _ K0), (k_root _ _ _ K1) in NE. apply OH. destruct H9 as [->|X]; [congruence|exact X].
Qed.

(** ** C15 *)
Lemma block_polls first nd m p : tstep first nd m p = SBlock ->
  p = PIdle \/ (exists o, p = PCrash o) \/ (exists o r, p = PRet o r) \/
  (exists n c, polls p = Some n /\ nth_error (m_cells m) n = Some c /\ locked (c_ver c) = true).
Proof.
  assert (GV : forall (o : op) a (k : N -> sres), lift m o (get_ver m a) k = SBlock ->
     exists c, nth_error (m_cells m) a = Some c /\ k (c_ver c) = SBlock).
  { intros o a k. unfold get_ver, idx. destruct (nth_error (m_cells m) a) as [c|] eqn:E; cbn; [|discriminate]. eauto. }
  assert (VC : forall o a v ok bad, vcheck m o a v ok bad <> SBlock).
  { intros o a v ok bad H. apply GV in H as (c & _ & H). discriminate. }
  assert (CA : forall o a v ok bad, vcas m o a v ok bad <> SBlock).
  { intros o a v ok bad H. apply GV in H as (c & _ & H). destruct (N.eqb (c_ver c) v); discriminate. }
  assert (UL : forall o a b nx, vunlock m o a b nx <> SBlock).
  { intros o a b nx H. apply GV in H as (c & _ & H). discriminate. }
  assert (RL : forall o a ok bad, rlock m o a ok bad = SBlock -> exists c, nth_error (m_cells m) a = Some c /\ locked (c_ver c) = true).
  { intros o a ok bad H. apply GV in H as (c & Hc & H). exists c. split; auto. destruct (locked (c_ver c)); auto. destruct (obsolete (c_ver c)); discriminate. }
  assert (LF : forall {X} (o : op) (x : res X) k, lift m o x k = SBlock -> exists y, x = Ok y /\ k y = SBlock).
  { intros X o [y| |] k H; cbn in H; try discriminate. eauto. }
  intros H. destruct p; cbn [tstep polls] in *; auto; try discriminate; try (exfalso; eapply VC; eassumption);
    try (exfalso; eapply CA; eassumption); try (right; right; right; apply RL in H as (c0 & X & Y); eauto; fail); try (right; left; eauto; fail); try (right; right; left; eauto; fail).
  all: try (apply LF in H as (y & E & H); try discriminate; repeat match goal with H : (let '(_, _) := ?y in _) = SBlock |- _ => destruct y end; try discriminate).
  - destruct first; [destruct (m_root m); discriminate|]. apply GV in H as (c & Hc & H). right; right; right. exists 0, c. split; auto. split; auto.
    destruct (locked (c_ver c)); auto; discriminate.
  - right; right; right. unfold get_ver, idx in E. destruct (nth_error (m_cells m) 0) as [c|] eqn:Hc; cbn in E; [|discriminate].
    apply Ok_inj in E. subst y. exists 0, c. split; auto. split; auto. destruct (locked (c_ver c)); auto; discriminate.
  - destruct (m_root m); discriminate.
  - exfalso. destruct (Nat.eqb d (length (op_key o))); [destruct o; discriminate|]. destruct (Nat.ltb d (length (op_key o))).
    + apply LF in H as (y & _ & H). apply LF in H as (y' & _ & H). destruct y' as ((? & ?) & ?). discriminate.
    + destruct o; discriminate.
  - exfalso. destruct (negb (N.eqb v y)); [discriminate|]. destruct o, next as [[?|?]|]; try discriminate;
      apply LF in H as (y' & _ & H); destruct y'; try discriminate; apply LF in H as (? & _ & H); discriminate.
  - exfalso. destruct (n_pleaf nd); [discriminate|]. apply LF in H as (y' & _ & H). discriminate.
  - exfalso. destruct (negb (N.eqb vx y)); [discriminate|]. destruct next as [[?|?]|]; discriminate.
  - exfalso. destruct (negb (N.eqb vx y)); [discriminate|]. apply LF in H as (? & _ & H). discriminate.
  - exfalso. destruct (Nat.eqb _ _); [discriminate|]. destruct (Nat.ltb _ _); discriminate.
  - exfalso. apply LF in H as (y' & _ & H). destruct y' as ((? & ?) & ?). discriminate.
  - exfalso. destruct (negb (N.eqb v y)); [discriminate|]. apply LF in H as (? & _ & H). discriminate.
  - exfalso. apply LF in H as (? & _ & H). discriminate.
  - exfalso. destruct y as [(? & ?)|]; [discriminate|]. apply LF in H as (? & _ & H). discriminate.
  - exfalso. destruct us as [|(? & ?) ?]; [discriminate|]. eapply UL; eauto.
Qed.

Lemma held_noreads p n : In n (held p) -> reads p = None /\ p <> PIdle /\ (forall o, p <> PCrash o) /\ (forall o r, p <> PRet o r).
Proof. destruct p; cbn; try contradiction; repeat split; discriminate. Qed.
Lemma held_polls p n c : In n (held p) -> polls p = Some c -> exists o f v mu i, p = CWait o f v mu i c.
Proof. destruct p; cbn; try contradiction; try discriminate. intros _ X. inversion X; subst. eauto 10. Qed.

(** A goroutine that holds a lock steps, unless it waits for the child it is about to merge. *)
Lemma holder_able s u n : In n (held (s_thr s u)) -> able s u \/ exists o f v mu i c, s_thr s u = CWait o f v mu i c /\ lockbit s c = true.
Proof.
  intros HI. destruct (held_noreads _ _ HI) as (NR & N1 & N2 & N3).
  destruct (tstep true newNode4 (s_mem s) (s_thr s u)) as [|m' p'] eqn:E.
  - right. apply block_polls in E as [E|[(o & E)|[(o & r & E)|(c & x & HP & Hx & L)]]]; [now apply N1 in E|now apply N2 in E|now apply N3 in E|].
    destruct (held_polls _ _ _ HI HP) as (o & f & v & mu & i & EP). exists o, f, v, mu, i, c. split; auto. unfold lockbit, cell_of. now rewrite Hx.
  - left. exists (ETau u). eexists. split; [|reflexivity]. eapply step_tau; [|exact E]. unfold reads_ok. now rewrite NR.
Qed.

Section Wait.
Context (h : list ev) (s : sys) (r : nat) (A : aheap) (S : nat -> seen) (G : GI h s r A S).

Definition wdepth (t : nat) : nat :=
  match s_thr s t with
  | CWait _ f _ _ _ _ => match A (f_cur f) with Some a => length (aW a) | None => 0 end
  | _ => 0
  end.

Lemma cwait_facts t o f v mu i c : s_thr s t = CWait o f v mu i c ->
  exists a ac, A (f_cur f) = Some a /\ A c = Some ac /\ length (aW a) < length (aW ac) /\ wdepth t = length (aW a) /\ c <> 0 /\
    (f_par f <> 0 -> exists ap, A (f_par f) = Some ap /\ length (aW ap) < length (aW a)).
Proof.
  intros E. pose proof (g_thr _ _ _ _ _ G t) as T. rewrite E in T. cbn [TI] in T. destruct T as (F & TW & RT & HC & (U & cc & Hc & V & MF & CL) & OP).
  pose proof (g_rep _ _ _ _ _ G) as K. pose proof (k_inv _ _ _ K) as I. pose proof MF as (a & Ha & _).
  pose proof (k_live_cell _ _ _ _ _ _ K Ha Hc) as R.
  assert (RF : root_fact r f).
  { destruct (Nat.eq_dec (f_par f) 0) as [E0|E0].
    - left. destruct (fi_root _ _ _ _ _ _ F E0) as (X1 & X2 & X3). split; auto. split; auto. apply X3. congruence.
    - right. split; auto. exact (fi_inner _ _ _ _ _ _ F E0). }
  destruct (child_lock_ok r A o f mu (c_node cc) a _ I Ha ltac:(rewrite <- Ha; exact MF) R (root_par r f RF)) as (x & EX & CX).
  rewrite EX in CL. apply Ok_inj in CL. destruct (CX i c CL) as (_ & _ & b & Eb).
  destruct (ai_node r A I _ _ _ _ Ha Eb) as (ac & Hac & _ & LE). exists a, ac. split; auto. split; auto. split; [lia|].
  split; [unfold wdepth; now rewrite E, Ha|]. split.
  - intros ->. rewrite (k_zero _ _ _ K) in Hac. discriminate.
  - intros NZ. destruct OP as (_ & cp & Hcp & _ & FL). destruct (FL NZ) as (ap & b' & sl & ps & Hap & Hch & _). exists ap. split; auto.
    destruct (ai_node r A I _ _ _ _ Hap Hch) as (a2 & Ha2 & _ & LE2). assert (a2 = a) by congruence. subst. lia.
Qed.

Lemma wait_deeper t u n o f v mu i o2 f2 v2 mu2 i2 n2 : s_thr s t = CWait o f v mu i n -> In n (held (s_thr s u)) ->
  s_thr s u = CWait o2 f2 v2 mu2 i2 n2 -> wdepth t < wdepth u.
Proof.
  intros E1 HI E2. destruct (cwait_facts _ _ _ _ _ _ _ E1) as (a & ac & Ha & Hac & LT & -> & NZ & _).
  destruct (cwait_facts _ _ _ _ _ _ _ E2) as (a2 & ac2 & Ha2 & Hac2 & LT2 & -> & NZ2 & PP).
  rewrite E2 in HI. cbn [held] in HI. destruct HI as [X|[X|[]]].
  - assert (ac = a2) by congruence. subst. lia.
  - destruct (PP ltac:(congruence)) as (ap & Hap & LP). assert (ac = ap) by congruence. subst. lia.
Qed.
End Wait.

Lemma max_wd (f : nat -> nat) B : exists M, forall t, t < B -> f t <= M.
Proof. induction B as [|B (M & IH)]; [exists 0; lia|]. exists (Nat.max M (f B)). intros t H. destruct (Nat.eq_dec t B) as [->|]; [lia|]. specialize (IH t ltac:(lia)). lia. Qed.

Theorem no_deadlock h s ow t n : oexec h s ow -> waiting s t n -> exists u k, ow k = Some u /\ able s u.
Proof.
  intros O (HP & HL). pose proof (owner_held _ _ _ O) as OH. destruct (GI_exec _ _ (oexec_exec _ _ _ O)) as (r & A & S & G).
  destruct (g_fin _ _ _ _ _ G) as (B & HB). destruct (max_wd (wdepth s A) B) as (M & HM).
  assert (WF : forall x u k, In k (held (s_thr s u)) -> M - wdepth s A u <= x -> exists u k, ow k = Some u /\ able s u).
  { induction x as [|x IH]; intros u k HI LE; (destruct (holder_able s u k HI) as [AB|(o & f & v & mu & i & c & E & LB)]; [exists u, k; split; auto; now apply OH|]);
      apply (lockbit_held s r A c (g_rep _ _ _ _ _ G) (g_lk _ _ _ _ _ G)) in LB as (u2 & HI2);
      (destruct (holder_able s u2 c HI2) as [AB|(o2 & f2 & v2 & mu2 & i2 & c2 & E2 & LB2)]; [exists u2, c; split; auto; now apply OH|]);
      pose proof (wait_deeper _ _ _ _ _ G _ _ _ _ _ _ _ _ _ _ _ _ _ _ E HI2 E2) as LT.
    - assert (u2 < B). { destruct (Nat.le_gt_cases B u2) as [X|X]; auto. rewrite (HB _ X) in E2. discriminate. } specialize (HM u2 H). lia.
    - eapply (IH u2); eauto. lia. }
  apply (lockbit_held s r A n (g_rep _ _ _ _ _ G) (g_lk _ _ _ _ _ G)) in HL as (u & HI). eapply WF; eauto.
Qed.

Theorem no_wait_cycle h s ow t : oexec h s ow -> ~ clos_trans nat (waits_for s ow) t t.
Proof.
  intros O CT. pose proof (owner_held _ _ _ O) as OH. destruct (GI_exec _ _ (oexec_exec _ _ _ O)) as (r & A & S & G).
  assert (HH : forall t u, clos_trans nat (waits_for s ow) t u -> (exists n, waiting s t n) /\ (exists n, In n (held (s_thr s u)))).
  { intros x y X. induction X as [x y (n & W & X)|x y z X1 (W1 & H1) X2 (W2 & H2)]; [|auto]. split; [eauto|]. exists n. now apply OH. }
  assert (HD : forall t u, clos_trans nat (waits_for s ow) t u -> (exists n, In n (held (s_thr s t))) -> (exists n, waiting s u n) -> wdepth s A t < wdepth s A u).
  { intros x y X. induction X as [x y (n & (P1 & L1) & X)|x y z X1 IH1 X2 IH2]; intros (k1 & HI) (k2 & P2 & L2).
    - apply OH in X. destruct (held_polls _ _ _ HI P1) as (o & f & v & mu & i & E1). destruct (held_polls _ _ _ X P2) as (o2 & f2 & v2 & mu2 & i2 & E2).
      eapply wait_deeper; eauto.
    - destruct (HH _ _ X1) as (_ & HY). destruct (HH _ _ X2) as (WY & _). specialize (IH1 (ex_intro _ k1 HI) WY).
      specialize (IH2 HY (ex_intro _ k2 (conj P2 L2))). lia. }
  destruct (HH _ _ CT) as (W & HI). specialize (HD _ _ CT HI W). lia.
Qed.

(** A goroutine that does not wait, has not returned and has not panicked can step,
    provided the read it is about to make returns something. *)
Lemma not_waiting_able s t : (forall n, ~ waiting s t n) -> (forall o, s_thr s t <> PCrash o) ->
  (exists nd, reads_ok (s_mem s) (s_thr s t) nd) -> able s t.
Proof.
  intros NW NC (nd & RD). destruct (tstep false nd (s_mem s) (s_thr s t)) as [|m' p'] eqn:E.
  - apply block_polls in E as [E|[(o & E)|[(o & r & E)|(n & c & HP & Hc & L)]]].
    + exists (ECall t (OGet [])). eexists. split; [|reflexivity]. apply step_call; auto. split; [constructor|cbn; lia].
    + now apply NC in E.
    + exists (ERet t r). eexists. split; [|reflexivity]. eapply step_ret; eauto.
    + exfalso. apply (NW n). split; auto. unfold lockbit, cell_of. now rewrite Hc.
  - exists (ETau t). eexists. split; [|reflexivity]. eapply step_tau; eauto.
Qed.

(** ** C12: what the version word says about a stretch of an execution *)
Lemma step_env h s e s' : exec h s -> step s e s' -> exists r A r' A', crep (s_mem s) r A /\ LK (s_mem s) A (s_thr s) /\
  crep (s_mem s') r' A' /\ env [] (s_mem s) r A (s_mem s') r' A'.
Proof.
  intros E ST. destruct (GI_exec _ _ E) as (r & A & S & G). pose proof (g_rep _ _ _ _ _ G) as K. pose proof (g_lk _ _ _ _ _ G) as LL.
  destruct (g_fin _ _ _ _ _ G) as (B & HB).
  destruct (step_seff _ _ _ _ E ST) as [t0 o EE HT ->|t0 o x EE HT ->|t0 r0 A0 p0 m0 r1 A1 EE K0 K1 LL0 O ->]; cbn [s_mem].
  - exists r, A, r, A. auto using env_refl.
  - exists r, A, r, A. auto using env_refl.
  - exists r0, A0, r1, A1. split; auto. split; auto. split; auto. set (u := Nat.max B (t0 + 1)).
    pose proof (other_env _ _ _ _ t0 LL0 _ _ _ _ O u ltac:(unfold u; lia)) as X. rewrite (HB u ltac:(unfold u; lia)) in X. exact X.
Qed.

Lemma steps_exec s l s' : steps s l s' -> forall h, exec h s -> exec (h ++ l) s'.
Proof.
  intros ST. induction ST as [s|s e s1 l s2 ST1 ST IH]; intros h E; [now rewrite app_nil_r|].
  change (e :: l) with ([e] ++ l). rewrite app_assoc. apply IH. econstructor; eauto.
Qed.

Lemma steps_ver s l s' : steps s l s' -> forall h n c, exec h s -> cell_of s n = Some c ->
  exists c', cell_of s' n = Some c' /\ (c_ver c <= c_ver c')%N.
Proof.
  intros ST. induction ST as [s|s e s1 l s2 ST1 ST IH]; intros h n c E Hc; [exists c; split; auto; lia|].
  destruct (step_env _ _ _ _ E ST1) as (r & A & r' & A' & K & LL & K' & EV).
  destruct (e_cell _ _ _ _ _ _ _ EV n c Hc) as (c1 & Hc1 & L1 & _).
  destruct (IH (h ++ [e]) n c1 ltac:(econstructor; eauto) Hc1) as (c2 & Hc2 & L2). exists c2. split; auto. lia.
Qed.

Theorem quiescent h s l s' n c c' : exec h s -> steps s l s' -> cell_of s n = Some c -> cell_of s' n = Some c' ->
  locked (c_ver c) = false -> obsolete (c_ver c) = false -> c_ver c' = c_ver c ->
  forall l1 s1 l2, l = l1 ++ l2 -> steps s l1 s1 -> steps s1 l2 s' -> cell_of s1 n = Some c.
Proof.
  intros E _ Hc Hc' NL NO V l1 s1 l2 _ ST1 ST2. revert h E Hc. induction ST1 as [s|s e sx l1 s1 ST0 ST1 IH]; intros h E Hc; auto.
  destruct (step_env _ _ _ _ E ST0) as (r & A & r' & A' & K & LL & K' & EV).
  destruct (e_cell _ _ _ _ _ _ _ EV n c Hc) as (c1 & Hc1 & L1 & X & _).
  assert (E1 : exec (h ++ [e]) sx) by (econstructor; eauto).
  destruct (steps_ver _ _ _ ST1 _ n c1 E1 Hc1) as (c2 & Hc2 & L2).
  pose proof (steps_exec _ _ _ ST1 _ E1) as E2.
  destruct (steps_ver _ _ _ ST2 _ n c2 E2 Hc2) as (c3 & Hc3 & L3). assert (c3 = c') by congruence. subst c3.
  assert (V1 : c_ver c1 = c_ver c) by lia. assert (U : unl (c_ver c)) by (eapply unlocked_live; eauto using (l_mod _ _ _ LL)).
  destruct (X V1 (or_introl U)) as (N1 & _). assert (c1 = c) by (destruct c1, c; cbn in *; congruence). subst c1. eapply IH; eauto.
Qed.

Theorem retired h s n c : exec h s -> cell_of s n = Some c -> obsolete (c_ver c) = true ->
  ~ reach (s_mem s) n /\ forall l s', steps s l s' -> cell_of s' n = Some c.
Proof.
  intros E Hc OB. split.
  - destruct (GI_exec _ _ E) as (r & A & S & G). pose proof (g_rep _ _ _ _ _ G) as K. pose proof (k_inv _ _ _ K) as I.
    assert (RL : forall x, reach (s_mem s) x -> A x <> None).
    { intros x RX. induction RX as [x HR|y cy b x sl ps RY IHy Hcy HB FC].
      - rewrite (k_root _ _ _ K) in HR. inversion HR; subst. destruct (ai_root _ _ I) as (a & Ha & _). congruence.
      - destruct (A y) as [ay|] eqn:Hy; [|congruence]. pose proof (k_live_cell _ _ _ _ _ _ K Hy Hcy) as R.
        destruct (find_rep _ _ _ R b HB) as (sl' & ps' & X & _). rewrite X in FC. apply Ok_inj in FC.
        destruct (aCh ay b) as [[k v|x']|] eqn:Eb; cbn in FC; try discriminate.
        assert (x' = x) by congruence. subst. destruct (ai_node _ _ I _ _ _ _ Hy Eb) as (ax & Hax & _). congruence. }
    intros RX. apply RL in RX. apply RX. pose proof (l_mod _ _ _ (g_lk _ _ _ _ _ G) n c Hc) as M. pose proof (mod4_bits (c_ver c)) as MB.
    rewrite OB in MB. apply (l_obs _ _ _ (g_lk _ _ _ _ _ G) n c Hc). destruct (locked (c_ver c)); cbn in MB; lia.
  - intros l s' ST. revert h E Hc. induction ST as [s|s e s1 l s2 ST1 ST IH]; intros h E Hc; auto.
    apply (IH (h ++ [e])); [econstructor; eauto|]. destruct (exec_oexec _ _ E) as (ow & O).
    destruct (one_writer _ _ _ _ _ O ST1) as (OW & CH & _). destruct (CH n c Hc) as (c1 & Hc1 & V1 & N1).
    destruct (GI_exec _ _ E) as (r & A & S & G). pose proof (l_mod _ _ _ (g_lk _ _ _ _ _ G) n c Hc) as M. pose proof (mod4_bits (c_ver c)) as MB.
    rewrite OB in MB. assert (NL : locked (c_ver c) = false) by (destruct (locked (c_ver c)); cbn in MB; auto; lia).
    assert (NB : lockbit s n = false) by (unfold lockbit; now rewrite Hc).
    assert (NOW : ow n = None). { destruct (ow n) eqn:EO; auto. assert (lockbit s n = true) by (apply OW; congruence). congruence. }
    assert (V : c_ver c1 = c_ver c).
    { destruct (N.eq_dec (c_ver c1) (c_ver c)) as [X|X]; auto. exfalso. destruct (V1 X) as [(_ & LB & VV)|(Y & _)]; [|congruence].
      destruct (GI_exec _ _ (exec_step _ _ _ _ E ST1)) as (r' & A' & S' & G').
      pose proof (l_mod _ _ _ (g_lk _ _ _ _ _ G') n c1 Hc1) as M1. rewrite VV in M1.
      assert (c_ver c mod 4 = 1)%N by (rewrite NL in MB; cbn in MB; lia). lia. }
    assert (D : c_node c1 = c_node c \/ c_node c1 <> c_node c).
    { destruct (step_env _ _ _ _ E ST1) as (r2 & A2 & r3 & A3 & K2 & LL2 & K3 & EV). destruct (step_seff _ _ _ _ E ST1) as [t0 o EE HT ->|t0 o x EE HT ->|t0 r0 A0 p0 m0 r1 A1 EE K0 K1 LL0 O2 ->].
      - left. unfold cell_of in *. cbn in Hc1. congruence.
      - left. unfold cell_of in *. cbn in Hc1. congruence.
      - assert (NI : ~ In n (held (s_thr s t0))).
        { intros X. apply (owner_held _ _ _ O) in X. congruence. }
        left. unfold cell_of in *. cbn [s_mem] in Hc1. destruct O2 as [CM H1 H2|y c0 CM Hc0 U H1 H2 H3|y obs c0 CM Hc0 H1 H2|o m2 r4 A4 H1 H2 H3 H4 FR H5 H6 H7 H8 H9].
        + congruence.
        + change (cell_at (set_ver (s_mem s) y (c_ver c0 + 2)) n = Some c1) in Hc1. rewrite (cell_set_ver _ _ c0) in Hc1 by auto.
          unfold cell_at in *. destruct (Nat.eqb_spec y n) as [<-|]; [|congruence]. assert (c0 = c) by congruence. subst. injection Hc1 as <-. reflexivity.
        + match type of Hc1 with nth_error (m_cells ?M) _ = _ => change (cell_at M n = Some c1) in Hc1 end. rewrite (cell_set_ver _ _ c0) in Hc1 by auto.
          unfold cell_at in *. destruct (Nat.eqb_spec y n) as [<-|]; [|congruence]. assert (c0 = c) by congruence. subst. injection Hc1 as <-. reflexivity.
        + destruct (fr_same _ _ _ _ _ _ _ _ FR n (cell_lt _ _ _ Hc) NI) as (X & _). unfold cell_at in *. congruence. }
    destruct D as [D|D]; [|destruct (N1 D); congruence]. rewrite Hc1. f_equal. destruct c1, c; cbn in *; congruence.
Qed.

(** ** C13, C14 *)
Definition canon (p : pc) : sstat :=
  match p with
  | PIdle => SIdle
  | PRet o r => SDone o r
  | PUnlock o _ true => SDone o None
  | _ => match pc_op p with Some o => SPend o | None => SIdle end
  end.
Lemma canon_ok p S : allowed p S (canon p).
Proof. destruct p; cbn; auto. destruct done; cbn; auto. Qed.

Theorem history_linearizable h s : exec h s -> exists L st, lin h L st /\
  forall t o, s_thr s t = PCrash o -> st t = SPend o.
Proof.
  intros E. destruct (GI_exec _ _ E) as (r & A & S & G).
  destruct (g_lin _ _ _ _ _ G (fun t => canon (s_thr s t)) (fun t => canon_ok _ _)) as (L & _ & X).
  exists L, (fun t => canon (s_thr s t)). split; auto. intros t o ->. reflexivity.
Qed.

Theorem only_put_panics h s ow t o : oexec h s ow -> s_thr s t = PCrash o ->
  (exists k v, o = OPut k v) /\ forall n, ow n <> Some t.
Proof.
  intros O E. destruct (GI_exec _ _ (oexec_exec _ _ _ O)) as (r & A & S & G). split.
  - pose proof (g_thr _ _ _ _ _ G t) as T. rewrite E in T. cbn in T. destruct o; try discriminate. eauto.
  - intros n X. apply (owner_held _ _ _ O) in X. rewrite E in X. contradiction.
Qed.
