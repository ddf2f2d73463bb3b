(** * ArtFineProps: C11-C16 carried over from the machine of ArtConc.v to the one that
    reads and writes one field at a time. *)
From Coq Require Import Relations.
From Verif Require Import Base BitsModel BitsFacts VecModel VecProofs VecProofs2 ArtNode
  ArtNodeProofs ArtNodeProofs2 ArtNodeProofs3 ArtModel ArtSpec ArtTree ArtTree2 ArtRep ArtRep2
  ArtTree3 ArtSeq ArtMono ArtSeq2 ArtSeq3 ArtConc ArtConcHeap ArtConcInv ArtConcStep ArtConcStep2 ArtConcSpec
  ArtConcGlobal ArtConcLin ArtConcLock ArtConcSolo ArtFine ArtFineRead ArtFineWrite ArtFineProofs ArtFineSpec.
Ltac Zify.zify_post_hook ::= Z.div_mod_to_equations.

(** ** Histories *)
Lemma lin_visible h L st : lin h L st -> lin (visible h) L st.
Proof.
  intros H. induction H as [st H|h L st t o st' H IH E C|h L st t o r st' H IH E C|h L st t H IH|h L st t o st' H IH E C]; rewrite ?visible_app.
  - now constructor.
  - eapply lin_call; eauto.
  - eapply lin_ret; eauto.
  - cbn [visible filter]. now rewrite app_nil_r.
  - eapply lin_op; eauto.
Qed.
Lemma visible_snoc h v e : visible h = v ++ [e] -> exists h1 l, h = h1 ++ [e] ++ l /\ visible h1 = v /\ visible l = [].
Proof.
  revert v. induction h as [|x h IH] using rev_ind; intros v E; [destruct v; discriminate|]. rewrite visible_app in E.
  destruct (visible [x]) as [|y [|]] eqn:X.
  - rewrite app_nil_r in E. destruct (IH v E) as (h1 & l & -> & V & VL). exists h1, (l ++ [x]). rewrite <- !app_assoc. split; auto. split; auto.
    rewrite visible_app, VL. exact X.
  - apply app_inj_tail in E as (E & ->). exists h, []. split; [|split; auto]. cbn in X. destruct x; inversion X; reflexivity.
  - cbn in X. destruct x; discriminate.
Qed.
Lemma lin_quiet l : forall h L st, lin h L st -> visible l = [] -> lin (h ++ l) L st.
Proof.
  induction l as [|x l IH]; intros h L st H V; [now rewrite app_nil_r|]. destruct x; cbn in V; try discriminate.
  change (ETau t :: l) with ([ETau t] ++ l). rewrite app_assoc. apply IH; auto. now constructor.
Qed.
Lemma lin_same v L st : lin v L st -> forall h, visible h = v -> lin h L st.
Proof.
  intros H. induction H as [st H|h L st t o st' H IH E C|h L st t o r st' H IH E C|h L st t H IH|h L st t o st' H IH E C]; intros g V.
  - apply (lin_quiet g []); auto. now constructor.
  - apply visible_snoc in V as (h1 & l & -> & V & VL). rewrite app_assoc. apply lin_quiet; auto. eapply lin_call; eauto.
  - apply visible_snoc in V as (h1 & l & -> & V & VL). rewrite app_assoc. apply lin_quiet; auto. eapply lin_ret; eauto.
  - exfalso. assert (X : In (ETau t) (visible g)) by (rewrite V; apply in_or_app; right; left; auto). apply filter_In in X as (_ & X). discriminate.
  - eapply lin_op; eauto.
Qed.

Theorem fine_linearizable h s : fexec h s -> exists L st, lin h L st /\
  forall t o, fs_thr s t = TAt (PCrash o) -> st t = SPend o.
Proof.
  intros F. destruct (sim_exec h s F) as (hc & cs & E & SM & V). destruct (history_linearizable hc cs E) as (L & st & LN & CR).
  exists L, st. split.
  - eapply lin_same; [apply lin_visible; exact LN|congruence].
  - intros t o ET. apply CR. rewrite (sm_thr _ _ SM), ET. reflexivity.
Qed.

(** ** Version words and locks *)
Lemma fsim_ver s cs n : Sim s cs -> option_map c_ver (fcell s n) = option_map c_ver (cell_of cs n).
Proof.
  intros SM. change (fcell s n) with (cell_at (fs_mem s) n). change (cell_of cs n) with (cell_at (s_mem cs) n). destruct (cell_at (fs_mem s) n) as [c|] eqn:Hc.
  - destruct (sm_cell _ _ SM n c Hc) as (c' & Hc' & V & _). rewrite Hc'. cbn. now rewrite V.
  - unfold cell_at in *. apply nth_error_None in Hc. pose proof (sm_len _ _ SM) as L. unfold mlen in L.
    rewrite (proj2 (nth_error_None (m_cells (s_mem cs)) n)) by lia. reflexivity.
Qed.
Lemma fsim_bit s cs n : Sim s cs -> flockbit s n = lockbit cs n.
Proof.
  intros SM. pose proof (fsim_ver s cs n SM) as X. unfold flockbit, lockbit. destruct (fcell s n), (cell_of cs n); cbn in X; try discriminate; auto.
  injection X as ->. reflexivity.
Qed.

Lemma fexec_foexec h s : fexec h s -> exists ow, foexec h s ow.
Proof.
  intros E. induction E as [|h s e s' E (ow & O) ST]; [eexists; constructor|]. eexists. eapply foexec_step; [exact O|exact ST|]. intros n. reflexivity.
Qed.
Lemma foexec_fexec h s ow : foexec h s ow -> fexec h s.
Proof. intros E. induction E; [constructor|econstructor; eauto]. Qed.

Lemma fbit_held hc s cs n : exec hc cs -> Sim s cs -> (flockbit s n = true <-> exists t, In n (held (pc_of (fs_thr s t)))).
Proof.
  intros E SM. rewrite (fsim_bit _ _ _ SM). destruct (GI_exec _ _ E) as (r & A & S & G).
  rewrite (lockbit_held cs r A n (g_rep _ _ _ _ _ G) (g_lk _ _ _ _ _ G)). split; intros (t & X); exists t; [rewrite <- (sm_thr _ _ SM); auto|rewrite (sm_thr _ _ SM); auto].
Qed.
Lemma fheld_disj hc s cs u t a : exec hc cs -> Sim s cs -> In a (held (pc_of (fs_thr s u))) -> In a (held (pc_of (fs_thr s t))) -> u = t.
Proof. intros E SM. rewrite <- !(sm_thr _ _ SM). eapply held_disj; eauto. Qed.

Lemma fstep_other s e s' u : fstep s e s' -> u <> ev_thread e -> fs_thr s' u = fs_thr s u.
Proof. intros ST N. destruct ST; cbn [fs_thr ev_thread] in *; now apply fupd_ne. Qed.

Lemma fowner h s ow : foexec h s ow -> forall n t, ow n = Some t <-> In n (held (pc_of (fs_thr s t))).
Proof.
  intros O. induction O as [|h s ow e s' ow' O IH ST HO]; [intros n t; cbn; split; [discriminate|contradiction]|].
  destruct (sim_exec _ _ (foexec_fexec _ _ _ O)) as (hc & cs & E & SM & _).
  destruct (sim_step hc s cs e s' SM E ST) as (l & cs' & STS & _ & SM'). pose proof (steps_exec _ _ _ STS hc E) as E'.
  intros n t. rewrite HO. pose proof (fbit_held hc s cs n E SM) as B. pose proof (fbit_held _ s' cs' n E' SM') as B'.
  destruct (flockbit s n) eqn:L, (flockbit s' n) eqn:L'.
  - destruct (proj1 B' eq_refl) as (u' & U'). destruct (proj1 B eq_refl) as (u & U).
    assert (UU : u' = u).
    { destruct (Nat.eq_dec u' (ev_thread e)) as [->|N'].
      - destruct (Nat.eq_dec u (ev_thread e)) as [->|N]; auto. rewrite <- (fstep_other _ _ _ u ST N) in U. eapply (fheld_disj _ s' cs'); eauto.
      - rewrite (fstep_other _ _ _ u' ST N') in U'. eapply (fheld_disj _ s cs); eauto. }
    subst u'. rewrite IH. split; intros X.
    + rewrite (fheld_disj _ s cs t u n E SM X U). exact U'.
    + rewrite (fheld_disj _ s' cs' t u n E' SM' X U'). exact U.
  - split; [discriminate|]. intros X. pose proof (proj2 B' (ex_intro _ t X)). discriminate.
  - destruct (proj1 B' eq_refl) as (u' & U').
    assert (UU : u' = ev_thread e).
    { destruct (Nat.eq_dec u' (ev_thread e)); auto. rewrite (fstep_other _ _ _ u' ST) in U' by auto. pose proof (proj2 B (ex_intro _ u' U')). discriminate. }
    subst u'. split; intros X; [inversion X; subst; exact U'|]. f_equal. eapply (fheld_disj _ s' cs'); eauto.
  - rewrite IH. split; intros X; exfalso; [pose proof (proj2 B (ex_intro _ t X))|pose proof (proj2 B' (ex_intro _ t X))]; discriminate.
Qed.

(** What one step may change: the contents of nodes the goroutine holds. *)
Lemma node_frame hc s cs t first m' x' : exec hc cs -> Sim s cs -> fgo first (fs_mem s) (fs_thr s t) = Some (m', x') ->
  forall a c, cell_at (fs_mem s) a = Some c -> exists c', cell_at m' a = Some c' /\ (c_node c' <> c_node c -> In a (held (pc_of (fs_thr s t))) /\ c_ver c' = c_ver c).
Proof.
  intros E SM H a c Hc.
  assert (SAME : m' = fs_mem s -> exists c', cell_at m' a = Some c' /\ (c_node c' <> c_node c -> In a (held (pc_of (fs_thr s t))) /\ c_ver c' = c_ver c)).
  { intros ->. exists c. split; auto. contradiction. }
  assert (VER : forall b w, m' = set_ver (fs_mem s) b w -> exists c', cell_at m' a = Some c' /\ (c_node c' <> c_node c -> In a (held (pc_of (fs_thr s t))) /\ c_ver c' = c_ver c)).
  { intros b w ->. destruct (cell_at (fs_mem s) b) as [cb|] eqn:Hb; [|rewrite (set_ver_none _ _ _ Hb); exists c; split; auto; contradiction].
    rewrite (cell_set_ver _ _ _ _ _ Hb). destruct (Nat.eqb_spec b a) as [->|]; [|exists c; split; auto; contradiction].
    eexists. split; [reflexivity|]. cbn. congruence. }
  assert (TRI : forall A p (x : res A) k, tri p (fs_mem s) x k = Some (m', x') -> (exists y, x = Ok y /\ k y = Some (m', x')) \/ m' = fs_mem s).
  { intros A p [y| |] k Y; cbn [tri] in Y; eauto; injection Y as <- <-; auto. }
  destruct (fs_thr s t) as [p|p b r|p ws fn|l b p] eqn:ET.
  - cbn [fgo] in H. destruct (reads p) as [(b, v)|] eqn:R.
    + apply TRI in H as [(y & _ & X)|X]; [injection X as <- <-|]; auto.
    + destruct (plain p) eqn:PL.
      * pose proof (tstep_ver first newNode4 (fs_mem s) (fs_mem s) p PL eq_refl (fun _ => eq_refl)) as X.
        assert (H' : match tstep first newNode4 (fs_mem s) p with SGo m' p' => Some (m', TAt p') | SBlock => None end = Some (m', x')).
        { rewrite <- H. destruct p; try discriminate PL; reflexivity. }
        destruct (tstep first newNode4 (fs_mem s) p) as [|m1 p1]; [discriminate|]. injection H' as <- <-.
        destruct X as (_ & [(-> & _)|(b & w & -> & _)]); eauto.
      * destruct p; try (cbn in PL, R; congruence).
        -- apply TRI in H as [([(i, ch)|] & _ & X)|X]; [injection X as <- <-|apply TRI in X as [((ws, fn) & _ & X)|X]; [injection X as <- <-|]|]; auto.
        -- apply TRI in H as [((ws, fn) & _ & X)|X]; [injection X as <- <-|]; auto.
  - assert (X : m' = fs_mem s); [|auto]. destruct r; cbn [fgo] in H; try (injection H as <- <-; reflexivity);
      (apply TRI in H as [(y & _ & X)|X]; [injection X as <- <-|]; auto).
  - pose proof (sm_thr _ _ SM t) as EP. rewrite ET in EP. cbn [pc_of] in EP. destruct ws as [|(b, w) ws].
    + assert (LV : (forall b l, fn <> FUnl b l) -> exists c', cell_at m' a = Some c' /\ (c_node c' <> c_node c -> In a (held (pc_of (TWr p [] fn))) /\ c_ver c' = c_ver c)).
      { intros NU. destruct (leave_facts hc s cs SM E t p fn ET) as (ws & m1 & p1 & _ & PL & AG & OU).
        destruct (run_both (held p) (fs_mem s) (awrs (s_mem cs) ws) fn m1) as (fm1 & RF & BO).
        { rewrite mlen_awrs. apply (sm_len _ _ SM). } { exact AG. } { rewrite root_awrs. apply (sm_root _ _ SM). }
        { exact (pl_loc _ _ _ _ _ _ PL). } { exact (pl_run _ _ _ _ _ _ PL). }
        assert (X : m' = fm1).
        { destruct fn as [|l q|l nn|b l]; cbn [fgo run_fin] in *; try (rewrite RF in H; cbn [tri] in H); try (injection H as <- <-; auto).
          - apply Ok_inj in RF. auto.
          - destruct (NU b l eq_refl). }
        subst m'. cbn [pc_of]. destruct (b_kept _ _ _ _ _ BO a c Hc) as (c' & Hc' & VV & _). exists c'. split; auto. intros NE. split; auto.
        destruct (in_dec Nat.eq_dec a (held p)) as [|HN]; auto. destruct (b_out _ _ _ _ _ BO a (cell_lt _ _ _ Hc) HN) as (Y & _).
        rewrite Hc, Hc' in Y. injection Y as ->. contradiction. }
      destruct fn as [|l q|l nn|b l]; try (apply LV; discriminate).
      cbn [fgo] in H. apply TRI in H as [(w & _ & X)|X]; [injection X as <- <-; eauto|auto].
    + cbn [fgo] in H. apply TRI in H as [(m1 & X & Y)|X]; [injection Y as <- <-|auto]. apply bind_inv in X as (n & X1 & X2).
      unfold get_node in X1. apply bind_inv in X1 as (cb & X1 & Y). apply Ok_inj in Y. subst n. apply idx_Ok in X1. change (cell_at (fs_mem s) b = Some cb) in X1.
      rewrite (put_node_ok _ _ _ _ X1) in X2. apply Ok_inj in X2. subst m1. rewrite cell_upd by (eapply cell_lt; eauto).
      destruct (Nat.eqb_spec b a) as [->|]; [|exists c; split; auto; contradiction]. eexists. split; [reflexivity|]. intros _. split; [|cbn; congruence].
      pose proof (sm_rel _ _ SM t) as RL. rewrite ET in RL. destruct RL as (_ & dn & _ & W & _). exact (proj1 (W _ (or_introl eq_refl))).
  - cbn [fgo] in H. apply TRI in H as [(m1 & X & Y)|X]; [injection Y as <- <-|auto].
    pose proof (sm_rel _ _ SM t) as RL. rewrite ET in RL. destruct RL as (n & i & cc & cf & -> & HI & _). apply store_inv in X as (cn & Hn & _ & ->).
    rewrite cell_upd by (eapply cell_lt; eauto). destruct (Nat.eqb_spec n a) as [->|]; [|exists c; split; auto; contradiction].
    eexists. split; [reflexivity|]. intros _. split; [exact HI|cbn; congruence].
Qed.

Theorem fine_one_writer h s ow e s' : foexec h s ow -> fstep s e s' ->
  (forall n, flockbit s n = true <-> ow n <> None) /\
  (forall n c, fcell s n = Some c -> exists c', fcell s' n = Some c' /\
     (c_ver c' <> c_ver c ->
        (flockbit s n = false /\ flockbit s' n = true /\ c_ver c' = (c_ver c + 2)%N) \/
        (ow n = Some (ev_thread e) /\ flockbit s' n = false)) /\
     (c_node c' <> c_node c -> ow n = Some (ev_thread e) /\ flockbit s' n = true)) /\
  (m_root (fs_mem s') <> m_root (fs_mem s) -> ow 0 = Some (ev_thread e)).
Proof.
  intros O ST. destruct (sim_exec _ _ (foexec_fexec _ _ _ O)) as (hc & cs & E & SM & _). pose proof (fowner _ _ _ O) as OW.
  split.
  { intros n. rewrite (fbit_held hc s cs n E SM). split.
    - intros (t & X). apply OW in X. congruence.
    - intros X. destruct (ow n) as [t|] eqn:Y; [|congruence]. exists t. now apply OW. }
  destruct ST as [t o ET VO|t o r ET|t first m' x' H]; cbn [ev_thread fs_mem].
  1, 2: split; [|congruence]; intros n c Hc; exists c; split; [exact Hc|]; split; congruence.
  destruct (exec_oexec hc cs E) as (cow & CO). pose proof (owner_held _ _ _ CO) as COW.
  assert (OO : forall n, cow n = Some t -> ow n = Some t). { intros n X. apply OW. rewrite <- (sm_thr _ _ SM). now apply COW. }
  destruct (sim_tau hc s cs SM E t first m' x' H) as (l & cs' & STS & FA & SM' & _ & LEN).
  pose proof (steps_exec _ _ _ STS hc E) as E'.
  set (s' := mkFS m' (fupd (fs_thr s) t x')) in *.
  assert (VC : forall n c c', fcell s n = Some c -> fcell s' n = Some c' -> exists d d', cell_of cs n = Some d /\ cell_of cs' n = Some d' /\ c_ver d = c_ver c /\ c_ver d' = c_ver c').
  { intros n c c' Hc Hc'. destruct (sm_cell _ _ SM n c Hc) as (d & Hd & V & _). destruct (sm_cell _ _ SM' n c' Hc') as (d' & Hd' & V' & _). exists d, d'. auto. }
  assert (UNL : forall n c cc, In n (held (s_thr cs t)) -> cell_at (fs_mem s) n = Some c -> c = cc -> locked (c_ver cc + 2) = false).
  { intros n c cc HI Hc <-. destruct (held_ver hc cs E t n HI) as (d & Hd & V). destruct (sm_cell _ _ SM n c Hc) as (d' & Hd' & V' & _).
    assert (d' = d) by congruence. subst d'. rewrite <- V'. destruct (locked (c_ver d + 2)) eqn:L; auto. apply locked_mod in L; lia. }
  split.
  - intros n c Hc. destruct (node_frame hc s cs t first m' x' E SM H n c Hc) as (c' & Hc' & NF). exists c'. split; [exact Hc'|]. split.
    + destruct (VC n c c' Hc Hc') as (d & d' & Hd & Hd' & V & V'). intros NE. rewrite !(fsim_bit _ _ _ SM), !(fsim_bit _ _ _ SM').
      destruct LEN as [LEN|(b & cb & HI & Hb & EM)].
      * destruct l as [|e [|]]; [|inversion FA as [|? ? -> _]; subst|cbn in LEN; lia].
        -- inversion STS; subst. congruence.
        -- inversion STS as [|? ? s1 ? ? ST1 ST2]; subst. inversion ST2; subst.
           destruct (one_writer hc cs cow (ETau t) cs' CO ST1) as (_ & B & _). destruct (B n d Hd) as (d2 & Hd2 & B1 & _).
           assert (d2 = d') by congruence. subst d2. rewrite V, V' in B1. destruct (B1 NE) as [X|(X & Y)]; [now left|]. right. split; auto.
      * right. rewrite <- (fsim_bit _ _ _ SM'). change (fcell s' n = Some c') in Hc'. unfold flockbit. rewrite Hc'. change (cell_at m' n = Some c') in Hc'. rewrite EM, (cell_set_ver _ _ _ _ _ Hb) in Hc'.
        destruct (Nat.eqb_spec b n) as [->|]; [|change (cell_at (fs_mem s) n = Some c) in Hc; congruence]. injection Hc' as <-. cbn [c_ver]. split; [|exact (UNL n cb cb HI Hb eq_refl)].
        apply OW. now rewrite <- (sm_thr _ _ SM).
    + intros NE. destruct (NF NE) as (HI & EV). split; [now apply OW|].
      pose proof (proj2 (fbit_held hc s cs n E SM) (ex_intro _ t HI)) as L. unfold flockbit in *. rewrite Hc in L. change (fcell s' n = Some c') in Hc'. rewrite Hc', EV. exact L.
  - intros NR. assert (HR : m_root (s_mem cs') <> m_root (s_mem cs)). { rewrite <- (sm_root _ _ SM), <- (sm_root _ _ SM'). exact NR. }
    destruct LEN as [LEN|(b & cb & HI & Hb & EM)].
    + destruct l as [|e [|]]; [|inversion FA as [|? ? -> _]; subst|cbn in LEN; lia].
      * inversion STS; subst. congruence.
      * inversion STS as [|? ? s1 ? ? ST1 ST2]; subst. inversion ST2; subst.
        destruct (one_writer hc cs cow (ETau t) cs' CO ST1) as (_ & _ & B). auto.
    + exfalso. apply NR. cbn [fs_mem s']. rewrite EM, (set_ver_eq _ _ _ _ Hb). reflexivity.
Qed.

(** ** Stretches *)
Lemma sim_steps s l s' : fsteps s l s' -> forall hc cs, exec hc cs -> Sim s cs -> exists lc cs', steps cs lc cs' /\ Sim s' cs'.
Proof.
  intros F. induction F as [s|s e s1 l s2 ST F IH]; intros hc cs E SM; [exists [], cs; split; auto; constructor|].
  destruct (sim_step hc s cs e s1 SM E ST) as (l1 & cs1 & S1 & _ & SM1). pose proof (steps_exec _ _ _ S1 hc E) as E1.
  destruct (IH _ _ E1 SM1) as (l2 & cs2 & S2 & SM2). exists (l1 ++ l2), cs2. split; auto.
  clear -S1 S2. induction S1 as [s|s e s1 l s2 ST S1 IH]; auto. cbn. econstructor; eauto.
Qed.

(** A node that is not locked is in the fine memory as in the coarse one. *)
Lemma clean_cell hc s cs n c : exec hc cs -> Sim s cs -> fcell s n = Some c -> locked (c_ver c) = false -> cell_of cs n = Some c.
Proof.
  intros E SM Hc NL. change (cell_of cs n) with (cell_at (s_mem cs) n). rewrite <- (sm_same _ _ SM); [exact Hc|]. intros u X.
  apply (dirty_held s cs SM) in X. rewrite (sm_thr _ _ SM) in X. pose proof (proj2 (fbit_held hc s cs n E SM) (ex_intro _ u X)) as L.
  unfold flockbit in L. rewrite Hc in L. congruence.
Qed.

Theorem fine_quiescent h s l s' n c c' : fexec h s -> fsteps s l s' -> fcell s n = Some c -> fcell s' n = Some c' ->
  locked (c_ver c) = false -> obsolete (c_ver c) = false -> c_ver c' = c_ver c ->
  forall l1 s1 l2, l = l1 ++ l2 -> fsteps s l1 s1 -> fsteps s1 l2 s' -> fcell s1 n = Some c.
Proof.
  intros F _ Hc Hc' NL NO V l1 s1 l2 _ F1 F2. destruct (sim_exec _ _ F) as (hc & cs & E & SM & _).
  destruct (sim_steps _ _ _ F1 hc cs E SM) as (k1 & cs1 & S1 & SM1). pose proof (steps_exec _ _ _ S1 hc E) as E1.
  destruct (sim_steps _ _ _ F2 _ _ E1 SM1) as (k2 & cs2 & S2 & SM2).
  pose proof (clean_cell hc s cs n c E SM Hc NL) as D. 
  destruct (sm_cell _ _ SM2 n c' Hc') as (d2 & D2 & V2 & _). change (cell_of cs2 n = Some d2) in D2.
  assert (D1 : cell_of cs1 n = Some c).
  { assert (S12 : steps cs (k1 ++ k2) cs2). { clear -S1 S2. induction S1; auto. cbn. econstructor; eauto. }
    eapply (quiescent hc cs (k1 ++ k2) cs2 n c d2); eauto. congruence. }
  pose proof (fsim_ver s1 cs1 n SM1) as X. rewrite D1 in X. destruct (fcell s1 n) as [c1|] eqn:Hc1; [|discriminate]. cbn in X. injection X as X.
  pose proof (clean_cell _ s1 cs1 n c1 E1 SM1 Hc1 ltac:(congruence)). congruence.
Qed.

Lemma reach_ext m m' : m_root m = m_root m' -> (forall a, nth_error (m_cells m) a = nth_error (m_cells m') a) -> forall n, reach m n -> reach m' n.
Proof.
  intros HR HC n H. induction H as [r H|n c b x sl ps H IH Hc HB FC]; [apply reach_root; congruence|]. eapply reach_child; eauto. now rewrite <- HC.
Qed.

Theorem fine_retired h s n c : fexec h s -> fcell s n = Some c -> obsolete (c_ver c) = true ->
  ((forall a, flockbit s a = false) -> ~ reach (fs_mem s) n) /\ forall l s', fsteps s l s' -> fcell s' n = Some c.
Proof.
  intros F Hc OB. destruct (sim_exec _ _ F) as (hc & cs & E & SM & _).
  destruct (sm_cell _ _ SM n c Hc) as (d & D & V & _).
  assert (NL : locked (c_ver c) = false).
  { destruct (GI_exec _ _ E) as (r & A & S & G). pose proof (l_mod _ _ _ (g_lk _ _ _ _ _ G) _ _ D) as M. rewrite V in M.
    pose proof (mod4_bits (c_ver c)) as B. rewrite OB in B. destruct (locked (c_ver c)); auto. cbn in B. lia. }
  pose proof (clean_cell hc s cs n c E SM Hc NL) as D1. destruct (retired hc cs n c E D1 OB) as (R1 & R2). split.
  - intros AL X. apply R1. revert X. apply reach_ext; [apply (sm_root _ _ SM)|]. intros a. apply (sm_same _ _ SM). intros u X.
    apply (dirty_held s cs SM) in X. rewrite (sm_thr _ _ SM) in X. pose proof (proj2 (fbit_held hc s cs a E SM) (ex_intro _ u X)) as L. rewrite AL in L. discriminate.
  - intros l s' FS. destruct (sim_steps _ _ _ FS hc cs E SM) as (k & cs' & SS & SM'). pose proof (R2 _ _ SS) as D'.
    pose proof (fsim_ver s' cs' n SM') as X. rewrite D' in X. destruct (fcell s' n) as [c'|] eqn:Hc'; [|discriminate]. cbn in X. injection X as X.
    pose proof (clean_cell _ s' cs' n c' (steps_exec _ _ _ SS hc E) SM' Hc' ltac:(congruence)). congruence.
Qed.

(** ** Panics *)
Theorem fine_only_put_panics h s ow t o : foexec h s ow -> fs_thr s t = TAt (PCrash o) ->
  (exists k v, o = OPut k v) /\ forall n, ow n <> Some t.
Proof.
  intros O ET. destruct (sim_exec _ _ (foexec_fexec _ _ _ O)) as (hc & cs & E & SM & _). destruct (exec_oexec _ _ E) as (cow & CO).
  destruct (only_put_panics hc cs cow t o CO) as (X & _); [rewrite (sm_thr _ _ SM), ET; reflexivity|]. split; auto.
  intros n Y. apply (fowner _ _ _ O) in Y. rewrite ET in Y. contradiction.
Qed.

(** ** Waiting *)
Lemma fgo_none s t : fgo true (fs_mem s) (fs_thr s t) = None -> exists p, fs_thr s t = TAt p /\ plain p = true /\ tstep true newNode4 (fs_mem s) p = SBlock.
Proof.
  assert (TRI : forall A p m (x : res A) k, tri p m x k = None -> exists y, x = Ok y /\ k y = None).
  { intros A p m [y| |] k Y; cbn [tri] in Y; eauto; discriminate. }
  intros H. destruct (fs_thr s t) as [p|p b r|p ws fn|l b p] eqn:ET.
  - exists p. split; auto. cbn [fgo] in H. destruct (reads p) as [(b, v)|] eqn:R; [apply TRI in H as (y & _ & X); discriminate|].
    destruct (plain p) eqn:PL.
    + split; auto. assert (H' : match tstep true newNode4 (fs_mem s) p with SGo m' p' => Some (m', TAt p') | SBlock => None end = None).
      { destruct p; try discriminate PL; exact H. }
      destruct (tstep true newNode4 (fs_mem s) p); auto; discriminate.
    + exfalso. destruct p; try (cbn in PL, R; congruence).
      * apply TRI in H as ([(i, ch)|] & _ & X); [discriminate|]. apply TRI in X as ((ws, fn) & _ & X). discriminate.
      * apply TRI in H as ((ws, fn) & _ & X). discriminate.
  - exfalso. destruct r; cbn [fgo] in H; try discriminate; apply TRI in H as (y & _ & X); discriminate.
  - exfalso. destruct ws as [|(b, w) ws]; [destruct fn|]; cbn [fgo] in H; try discriminate; apply TRI in H as (y & _ & X); discriminate.
  - exfalso. cbn [fgo] in H. apply TRI in H as (y & _ & X). discriminate.
Qed.
Lemma plain_nd first nd m p : plain p = true -> tstep first nd m p = tstep first newNode4 m p.
Proof. destruct p; try discriminate; reflexivity. Qed.

Lemma sim_able hc s cs u : exec hc cs -> Sim s cs -> able cs u -> (exists n, In n (held (s_thr cs u))) -> fable s u.
Proof.
  intros E SM (e & cs' & ST & EU) (n & HI). destruct (fgo true (fs_mem s) (fs_thr s u)) as [(m', x')|] eqn:G.
  { exists (ETau u). eexists. split; [eapply fst_tau; exact G|reflexivity]. }
  exfalso. apply fgo_none in G as (p & ET & PL & B). pose proof (sm_thr _ _ SM u) as EP. rewrite ET in EP. cbn [pc_of] in EP. rewrite EP in HI.
  apply block_polls in B as [->|[(o & ->)|[(o & r & ->)|(m & c & PO & Hc & L)]]]; try contradiction.
  destruct (sm_cell _ _ SM m c Hc) as (d & D & V & _).
  destruct ST as [t o HT VO|t o r HT|t first nd m' p' RD ST]; cbn [ev_thread] in EU; subst u; try (rewrite EP in HT; subst p; contradiction).
  rewrite EP in ST. pose proof (held_polls _ _ _ HI PO) as (o & f & v & mu & i & ->). cbn [tstep] in ST.
  unfold cell_at in D. unfold rlock, lift, get_ver, idx in ST. rewrite D in ST. cbn [bind] in ST. rewrite V, L in ST. discriminate.
Qed.

Theorem fine_no_deadlock h s ow t n : foexec h s ow -> fwaiting s t n -> exists u k, ow k = Some u /\ fable s u.
Proof.
  intros O (HP & HL). destruct (sim_exec _ _ (foexec_fexec _ _ _ O)) as (hc & cs & E & SM & _). destruct (exec_oexec _ _ E) as (cow & CO).
  assert (W : waiting cs t n). { split; [|now rewrite <- (fsim_bit _ _ _ SM)]. rewrite (sm_thr _ _ SM). destruct (fs_thr s t); try discriminate. exact HP. }
  destruct (no_deadlock _ _ _ _ _ CO W) as (u & k & OU & AB). apply (owner_held _ _ _ CO) in OU. exists u, k. split.
  - apply (fowner _ _ _ O). now rewrite <- (sm_thr _ _ SM).
  - eapply sim_able; eauto.
Qed.

Theorem fine_no_cycle h s ow t : foexec h s ow -> ~ clos_trans nat (fwaits_for s ow) t t.
Proof.
  intros O CT. destruct (sim_exec _ _ (foexec_fexec _ _ _ O)) as (hc & cs & E & SM & _). destruct (exec_oexec _ _ E) as (cow & CO).
  apply (no_wait_cycle _ _ _ t CO). revert CT. generalize t at 1 3. intros t0 CT.
  induction CT as [x y (n & (P & L) & OY)|x y z C1 I1 C2 I2]; [|eapply t_trans; eauto]. apply t_step. exists n. split.
  - split; [|now rewrite <- (fsim_bit _ _ _ SM)]. rewrite (sm_thr _ _ SM). destruct (fs_thr s x); try discriminate. exact P.
  - apply (owner_held _ _ _ CO). rewrite (sm_thr _ _ SM). now apply (fowner _ _ _ O).
Qed.

(** A goroutine that cannot take a step is between operations, has panicked or waits. *)
Theorem fine_only_waits s t : ~ fable s t -> (exists o, fs_thr s t = TAt (PCrash o)) \/ exists n, fwaiting s t n.
Proof.
  intros NA. destruct (fgo true (fs_mem s) (fs_thr s t)) as [(m', x')|] eqn:G.
  { exfalso. apply NA. exists (ETau t). eexists. split; [eapply fst_tau; exact G|reflexivity]. }
  apply fgo_none in G as (p & ET & PL & B). apply block_polls in B as [->|[(o & ->)|[(o & r & ->)|(m & c & PO & Hc & L)]]].
  - exfalso. apply NA. exists (ECall t (OGet [])). eexists. split; [|reflexivity]. apply fst_call; auto. split; [constructor|cbn; lia].
  - left. eauto.
  - exfalso. apply NA. exists (ERet t r). eexists. split; [|reflexivity]. eapply fst_ret; eauto.
  - right. exists m. split; [rewrite ET; exact PO|]. unfold flockbit, fcell. now rewrite Hc.
Qed.

(** ** Running alone *)
Lemma sim_finishes t cs : finishes t cs -> forall l cs', steps cs l cs' -> Forall (fun e => e = ETau t) l ->
  forall hc s, exec hc cs' -> Sim s cs' -> ffinishes t s.
Proof.
  intros F. induction F as [cs o r ER|cs EX IHX IH].
  - intros l cs' ST FA hc s E SM. destruct ST as [cs|cs e c1 l c2 S1 S2].
    2: { inversion FA as [|? ? -> _]; subst. inversion S1 as [| |? first nd m' p' RD S1']; subst. rewrite ER in S1'. discriminate. }
    pose proof (sm_thr _ _ SM t) as EP. rewrite ER in EP. pose proof (sm_rel _ _ SM t) as RL.
    destruct (fs_thr s t) as [p|p b rr|p ws fn|l b p] eqn:ET; cbn [pc_of] in EP; subst p.
    + eapply ffin_ret; eauto.
    + destruct RL as (v & c & R & _). discriminate.
    + destruct RL as (NC & _). contradiction.
    + destruct RL as (a & i & cc & cf & _ & HI & _). contradiction.
  - intros l cs' ST0 FA0 hc s E SM. destruct ST0 as [cs|cs e c1 l c2 S1 S2].
    2: { inversion FA0 as [|? ? -> FA1]; subst. eapply IH; eauto. }
    assert (W : forall x, Acc lower x -> forall s, fs_thr s t = x -> Sim s cs -> ffinishes t s); [|eapply W; eauto; apply lower_wf].
    clear s SM. intros x AC. induction AC as [x _ IA]. intros s EX0 SM. apply ffin_step.
    + destruct (fgo true (fs_mem s) (fs_thr s t)) as [(m', x')|] eqn:G; [eexists; eapply fst_tau; exact G|]. exfalso.
      apply fgo_none in G as (p & ET & PL & B). destruct EX as (cs' & ST). inversion ST as [| |? first nd m' p' RD ST']; subst.
      pose proof (sm_thr _ _ SM t) as EP. rewrite ET in EP. cbn [pc_of] in EP. rewrite EP, (plain_nd _ _ _ _ PL) in ST'.
      pose proof B as B0. apply block_polls in B as [->|[(o & ->)|[(o & r & ->)|(m & c & PO & Hc & L)]]]; try discriminate.
      destruct (sm_cell _ _ SM m c Hc) as (d & D & V & _). unfold cell_at in D. rewrite <- V in L. clear -PL PO L D ST' B0.
      destruct p; try discriminate PL; cbn [polls] in PO; try discriminate PO; injection PO as <-; cbn [tstep] in ST'; unfold rlock, lift, get_ver, idx in ST';
        rewrite D in ST'; cbn [bind] in ST'; rewrite L in ST'; try discriminate.
      cbn [tstep] in B0. unfold go, crash in B0. destruct (m_root (fs_mem s)); discriminate.
    + intros s' ST. inversion ST as [| |? first m' x' H]; subst. destruct (sim_tau hc s cs SM E t first m' x' H) as (l & cs' & STS & FA & SM' & LO & _).
      pose proof (steps_exec _ _ _ STS hc E) as E'. inversion STS as [|? e c1 l' ? ST1 ST2]; subst.
      * eapply IA; [exact (LO eq_refl)|cbn [fs_thr]; apply fupd_eq|exact SM'].
      * inversion FA as [|? ? -> FA']; subst. eapply IH; eauto.
Qed.

Theorem fine_runs_alone h s t o : fexec h s -> (forall n, flockbit s n = false) ->
  fs_thr s t = TAt PIdle -> valid_op o -> (forall k, o <> ODelete k) ->
  ffinishes t (mkFS (fs_mem s) (fupd (fs_thr s) t (TAt (PStart o)))).
Proof.
  intros F NL ET VO ND. destruct (sim_exec _ _ F) as (hc & cs & E & SM & _).
  assert (EP : s_thr cs t = PIdle) by (rewrite (sm_thr _ _ SM), ET; reflexivity).
  assert (FI : finishes t (mkSys (s_mem cs) (upd_thr (s_thr cs) t (PStart o)))).
  { eapply runs_alone; eauto. intros n. now rewrite <- (fsim_bit _ _ _ SM). }
  eapply (sim_finishes t _ FI []); [constructor|constructor| |].
  - econstructor; [exact E|]. apply step_call; auto.
  - apply (pure_move _ _ SM). now rewrite ET.
Qed.

(** ** What is read in between *)
Theorem fine_values h s l s' n c c' : fexec h s -> fcell s n = Some c -> fcell s' n = Some c' ->
  locked (c_ver c) = false -> obsolete (c_ver c) = false -> c_ver c' = c_ver c ->
  forall l1 s1 t s2 l2 p r, l = l1 ++ ETau t :: l2 -> fsteps s l1 s1 -> fstep s1 (ETau t) s2 -> fsteps s2 l2 s' ->
  fs_thr s1 t = TRd p n r -> (forall q, r <> RDone q) -> fs_thr s2 t = TRd p n (rstep (c_node c) r).
Proof.
  intros F Hc Hc' NL NO V l1 s1 t s2 l2 p r EL F1 ST F2 ET ND.
  assert (FA : fsteps s1 (ETau t :: l2) s') by (econstructor; eauto).
  assert (FF : fsteps s l s'). { rewrite EL. clear -F1 FA. induction F1; auto. cbn. econstructor; eauto. }
  pose proof (fine_quiescent h s l s' n c c' F FF Hc Hc' NL NO V l1 s1 _ EL F1 FA) as H1.
  inversion ST as [| |? first m' x' H]; subst. rewrite ET in H. cbn [fs_thr]. rewrite fupd_eq.
  assert (X : fgo first (fs_mem s1) (TRd p n r) = tri p (fs_mem s1) (get_node (fs_mem s1) n) (fun n0 => Some (fs_mem s1, TRd p n (rstep n0 r)))).
  { destruct r; try reflexivity. destruct (ND p0 eq_refl). }
  rewrite X, (get_node_ok _ _ _ H1) in H. cbn [tri] in H. injection H as <- <-. reflexivity.
Qed.
