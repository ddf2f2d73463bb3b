(** * ArtBlame: a Get or Put starts over only after somebody else has locked or unlocked a
    node. *)
From Coq Require Import Permutation.
From Verif Require Import Base BitsModel BitsFacts VecModel VecProofs VecProofs2 ArtNode
  ArtNodeProofs ArtNodeProofs2 ArtNodeProofs3 ArtModel ArtSpec ArtTree ArtTree2 ArtRep ArtRep2
  ArtTree3 ArtSeq ArtMono ArtSeq2 ArtSeq3 ArtConc ArtConcHeap ArtConcInv ArtConcStep ArtConcStep2 ArtConcSpec ArtConcGlobal ArtConcLin ArtConcLock ArtConcSolo
  ArtFine ArtFineSpec ArtFineProofs ArtFineProps ArtBeside.
Ltac Zify.zify_post_hook ::= Z.div_mod_to_equations.

(** Everything the goroutine remembers and has yet to check is as it was. *)
Definition care (m : mem) (p : pc) : Prop :=
  match p with
  | PStart _ => False
  | PRoot _ r0 => m_root m = PNode r0 \/ exists c, cell_at m 0 = Some c /\ locked (c_ver c) = true
  | PDum _ w => now m 0 w /\ locked w = false
  | PLock _ f => now m (f_par f) (f_pv f) /\ (f_par f = 0 -> locked (f_pv f) = false /\ m_root m = PNode (f_cur f))
  | PPar _ f v | PRead0 _ f v | PRead1 _ f v | PMiss _ f v | IMis _ f v | IMis1 _ f v
  | FChk _ f v _ | FPar _ f v _ | IMis2 _ f v _ | IPl _ f v _ _ | IDep _ f v | IFull _ f v _
  | LPar _ f v _ | LCur1 _ f v _ | PRead2 _ f v _ | PNext _ f v _ _ _ _ | IPar _ f v _ _ _ | IFind _ f v _
  | FRd _ f v _ _ | FLeaf _ f v _ _ _ | FVal _ f v _ _ _ | FNext _ f v _ => now m (f_par f) (f_pv f) /\ now m (f_cur f) v
  | LCur2 _ f v _ => now m (f_cur f) v
  | LChk _ f _ _ => now m (f_par f) (f_pv f)
  | PUnlock _ _ done => done = true
  | PIdle | PCrash _ | PRet _ _ | PWrite _ _ _ _ => True
  | _ => False
  end.

Lemma go_eq m p m' p' : go m p = SGo m' p' -> m' = m /\ p' = p.
Proof. intros H. injection H as <- <-. auto. Qed.
Lemma lift_eq {X} m o (x : res X) k m' p' : lift m o x k = SGo m' p' -> (exists y, x = Ok y /\ k y = SGo m' p') \/ (m' = m /\ p' = PCrash o).
Proof. destruct x; cbn [lift]; unfold crash; intros H; eauto; injection H as <- <-; auto. Qed.

Section Own.
Context (h : list ev) (s : sys) (E : exec h s) (t : nat) (o : op) (ND : forall k, o <> ODelete k).

Lemma live_cur r A S f : GI h s r A S -> FI (s_mem s) r A (S t) o f -> now (s_mem s) (f_par f) (f_pv f) ->
  (f_par f = 0 -> m_root (s_mem s) = PNode (f_cur f)) -> A (f_cur f) <> None.
Proof.
  intros G F (cp & Hcp & Vp) R. pose proof (g_rep _ _ _ _ _ G) as K. destruct (Nat.eq_dec (f_par f) 0) as [E0|E0].
  - specialize (R E0). rewrite (k_root _ _ _ K) in R. injection R as <-. destruct (ai_root r A (k_inv _ _ _ K)) as (a & Ha & _). congruence.
  - destruct (proj2 (fi_link _ _ _ _ _ _ F) cp Hcp Vp E0) as (ap & b & sl & q & Hap & Hb & _).
    destruct (ai_node r A (k_inv _ _ _ K) _ _ _ _ Hap Hb) as (ac & Hac & _). congruence.
Qed.


Ltac brk ST := repeat match type of ST with
  | context [match ?x with _ => _ end] => destruct x eqn:?
  end; try discriminate ST; injection ST as <- <-; cbn [care f_par f_pv f_cur] in *; auto;
  repeat match goal with |- context [match ?x with _ => _ end] => destruct x eqn:? end; cbn [care f_par f_pv f_cur]; auto.

Lemma not_obsolete r A S n c : GI h s r A S -> A n <> None -> cell_at (s_mem s) n = Some c -> obsolete (c_ver c) = false.
Proof.
  intros G HA Hc. pose proof (g_lk _ _ _ _ _ G) as LL. pose proof (l_mod _ _ _ LL n c Hc) as M. pose proof (mod4_bits (c_ver c)) as MB.
  destruct (obsolete (c_ver c)) eqn:OB; auto. exfalso. apply HA. apply (l_obs _ _ _ LL n c Hc). destruct (locked (c_ver c)); cbn in MB; lia.
Qed.

Lemma care_own first nd m' p' : reads_ok (s_mem s) (s_thr s t) nd -> pc_op (s_thr s t) = Some o -> care (s_mem s) (s_thr s t) ->
  tstep first nd (s_mem s) (s_thr s t) = SGo m' p' -> care m' p'.
Proof.
  intros RD EO C ST. destruct (GI_exec _ _ E) as (r & A & S & G). pose proof (g_thr _ _ _ _ _ G t) as T. pose proof (g_rep _ _ _ _ _ G) as K.
  destruct (s_thr s t) as [] eqn:ET; cbn [care pc_op] in *; try contradiction; try discriminate EO; try (injection EO as ->); cbn [tstep TI] in *; try discriminate ST;
    unfold retry, go in ST.
  - (* PRoot *) apply lift_eq in ST as [(w & GV & ST)|(-> & ->)]; [|exact Logic.I]. destruct (locked w) eqn:LW; [discriminate|].
    injection ST as <- <-. cbn [care f_par f_pv f_cur]. destruct (k_dummy _ _ _ K) as (c & Hc). rewrite (get_ver_ok _ _ _ Hc) in GV. injection GV as <-.
    split; [now exists c|]. intros _. split; auto. destruct C as [C|(c' & Hc' & L)]; [exact C|congruence].
  - (* PDum *) unfold crash in ST. brk ST. destruct C as (C1 & C2). auto.
  - (* PLock *) destruct C as (C1 & C2). unfold rlock in ST. apply lift_eq in ST as [(w & GV & ST)|(-> & ->)]; [|exact Logic.I].
    destruct (locked w) eqn:LW; [discriminate|].
    assert (HA : A (f_cur f) <> None) by (eapply live_cur; eauto; intros Z; now apply C2).
    destruct (fi_has _ _ _ _ _ _ T) as (c & Hc). rewrite (get_ver_ok _ _ _ Hc) in GV. injection GV as <-.
    rewrite (not_obsolete _ _ _ _ _ G HA Hc) in ST. injection ST as <- <-.
    assert (now (s_mem s) (f_cur f) (c_ver c)) by now exists c. destruct o; cbn [care]; auto.
  - (* PPar *) destruct C as (C1 & C2). rewrite vcheck_now in ST by auto. brk ST.
  - brk ST.
  - unfold lift, crash in ST. brk ST.
  - unfold lift, crash in ST. destruct o; [| |exfalso; eapply ND; reflexivity]; brk ST.
  - destruct C as (C1 & C2). rewrite vcheck_now in ST by auto. brk ST.
  - (* PNext *) destruct C as (C1 & C2). destruct C2 as (c & Hc & V). rewrite (get_ver_ok _ _ _ Hc) in ST. cbn [lift] in ST. rewrite V, N.eqb_refl in ST. cbn [negb] in ST.
    assert (now (s_mem s) (f_cur f) v) by now exists c. pose proof (fi_cur _ _ _ _ _ _ (proj1 T)) as F0.
    destruct o; [| |exfalso; eapply ND; reflexivity]; unfold lift, crash, go in ST; brk ST; split; auto; intros; contradiction.
  - brk ST.
  - unfold lift, crash in ST. brk ST.
  - destruct C as (C1 & C2). rewrite vcheck_now in ST by auto. brk ST.
  - destruct C as (C1 & C2). rewrite vcheck_now in ST by auto. brk ST.
  - unfold lift, crash in ST. brk ST.
  - unfold lift, crash in ST. brk ST.
  - unfold lift, crash in ST. brk ST.
  - unfold rlock, lift, crash, go in ST. brk ST.
  - unfold lift, crash in ST. brk ST.
  - brk ST.
  - unfold crash in ST. brk ST.
  - unfold lift, crash in ST. brk ST.
  - unfold lift, crash in ST. brk ST.
  - (* IPar *) destruct C as (C1 & C2). rewrite vcheck_now in ST by auto. pose proof (fi_cur _ _ _ _ _ _ (proj1 T)) as F0.
    injection ST as <- <-. destruct np; cbn [care f_par f_pv f_cur]; auto. split; auto. intros; contradiction.
  - (* LPar *) destruct C as (C1 & C2). rewrite vcas_now in ST by auto. injection ST as <- <-. cbn [care]. pose proof C1 as (c & Hc & _).
    eapply now_set_ver; eauto. eapply cur_par; [exact K|apply T|exact C1].
  - (* LCur2 *) rewrite vcas_now in ST by auto. injection ST as <- <-. exact Logic.I.
  - (* LCur1 *) destruct C as (C1 & C2). rewrite vcas_now in ST by auto. injection ST as <- <-. destruct (checks mu); cbn [care]; [|exact Logic.I]. pose proof C2 as (c & Hc & _).
    eapply now_set_ver; eauto. intros X. symmetry in X. revert X. eapply cur_par; [exact K|apply T|exact C1].
  - (* LChk *) rewrite vcheck_now in ST by auto. injection ST as <- <-. exact Logic.I.
  - (* PWrite *) destruct T as (F & (_ & c & Hc & _ & MF) & _). pose proof MF as (a & _ & M). rewrite (get_node_ok _ _ _ Hc) in ST. cbn [bind] in ST.
    destruct o as [k w|k|k]; [|destruct mu; contradiction|now destruct (ND k)]. unfold child_lock in ST. rewrite (pulled_put _ _ _ _ _ _ _ MF) in ST. cbn [bind lift] in ST.
    apply lift_eq in ST as [(m2 & _ & ST)|(-> & ->)]; [|exact Logic.I]. injection ST as <- <-. reflexivity.
  - (* PUnlock *) subst done. destruct us as [|(a & obs) us]; [injection ST as <- <-; exact Logic.I|]. unfold vunlock in ST.
    apply lift_eq in ST as [(w & _ & ST)|(-> & ->)]; [|exact Logic.I]. injection ST as <- <-. reflexivity.
Qed.
End Own.

(** ** Steps of the others *)
Lemma touches_dec s s' : touches s s' \/ forall n c c', cell_of s n = Some c -> cell_of s' n = Some c' -> c_ver c = c_ver c'.
Proof.
  assert (D : forall k, (exists n c c', cell_of s n = Some c /\ cell_of s' n = Some c' /\ c_ver c <> c_ver c') \/
     forall n c c', n < k -> cell_of s n = Some c -> cell_of s' n = Some c' -> c_ver c = c_ver c').
  { induction k as [|k [IH|IH]]; [right; intros; lia|now left|].
    destruct (cell_of s k) as [c|] eqn:Hc; [destruct (cell_of s' k) as [c'|] eqn:Hc'; [destruct (N.eq_dec (c_ver c) (c_ver c')) as [EV|NV]|]|].
    - right. intros n d d' Hn H1 H2. destruct (Nat.eq_dec n k) as [->|]; [congruence|apply (IH n); auto; lia].
    - left. eauto 7.
    - right. intros n d d' Hn H1 H2. destruct (Nat.eq_dec n k) as [->|]; [congruence|apply (IH n); auto; lia].
    - right. intros n d d' Hn H1 H2. destruct (Nat.eq_dec n k) as [->|]; [congruence|apply (IH n); auto; lia]. }
  destruct (D (length (m_cells (s_mem s)))) as [T|T]; [now left|right]. intros n c c' Hc. apply (T n); auto.
  apply nth_error_Some. unfold cell_of in Hc. congruence.
Qed.

Lemma care_other h s e s' t : exec h s -> step s e s' -> ev_thread e <> t ->
  (forall n c c', cell_of s n = Some c -> cell_of s' n = Some c' -> c_ver c = c_ver c') ->
  care (s_mem s) (s_thr s t) -> care (s_mem s') (s_thr s' t) /\ s_thr s' t = s_thr s t.
Proof.
  intros E ST NE SAME C. assert (ET : s_thr s' t = s_thr s t) by (inversion ST; subst; cbn [s_thr ev_thread] in *; now rewrite upd_ne by auto).
  split; [|exact ET]. rewrite ET. clear ET. destruct (exec_oexec _ _ E) as (ow & OE). destruct (one_writer _ _ _ _ _ OE ST) as (LB & CE & RT).
  assert (NW : forall n v, now (s_mem s) n v -> now (s_mem s') n v).
  { intros n v (c & Hc & V). destruct (CE n c Hc) as (c' & Hc' & _). exists c'. split; [exact Hc'|]. rewrite <- (SAME n c c'); auto. }
  assert (RTL : m_root (s_mem s') = m_root (s_mem s) \/ exists c, cell_at (s_mem s) 0 = Some c /\ locked (c_ver c) = true).
  { assert (D : {m_root (s_mem s') = m_root (s_mem s)} + {m_root (s_mem s') <> m_root (s_mem s)}) by (repeat decide equality).
    destruct D as [D|D]; [now left|right]. specialize (RT D). assert (L : lockbit s 0 = true) by (apply LB; congruence).
    unfold lockbit in L. unfold cell_of, cell_at in *. destruct (nth_error (m_cells (s_mem s)) 0); [eauto|discriminate]. }
  assert (LK0 : (exists c, cell_at (s_mem s) 0 = Some c /\ locked (c_ver c) = true) -> exists c, cell_at (s_mem s') 0 = Some c /\ locked (c_ver c) = true).
  { intros (c & Hc & L). destruct (CE 0 c Hc) as (c' & Hc' & _). exists c'. split; [exact Hc'|]. rewrite <- (SAME 0 c c'); auto. }
  destruct (s_thr s t); cbn [care] in *; try contradiction; auto; try (destruct C; split; now auto).
  - destruct C as [C|C]; [|now right; apply LK0]. destruct RTL as [R|R]; [left; congruence|right; auto].
  - destruct C as (C1 & C2). split; auto. intros Z. destruct (C2 Z) as (U & R). split; auto. destruct RTL as [R'|(c & Hc & L)]; [congruence|].
    exfalso. rewrite Z in C1. destruct C1 as (c1 & Hc1 & V). assert (c1 = c) by congruence. subst. congruence.
Qed.

Lemma op_step first nd m p m' p' : tstep first nd m p = SGo m' p' -> pc_op p' = pc_op p.
Proof.
  intros ST. destruct p; cbn [tstep] in ST; unfold rlock, vcheck, vcas, vunlock, lift, go, crash, retry in ST;
    repeat match type of ST with
    | context [match ?x with _ => _ end] => destruct x eqn:?
    end; try discriminate ST; injection ST as <- <-; cbn [pc_op]; auto;
    repeat match goal with |- context [match ?x with _ => _ end] => destruct x eqn:? end; cbn [pc_op]; auto.
Qed.

Lemma blame_later s e s1 l s' t : step s e s1 -> blame s1 l s' t -> blame s (e :: l) s' t.
Proof.
  intros ST (l1 & e1 & l2 & a & b & -> & S1 & S2 & S3 & NE & TC). exists (e :: l1), e1, l2, a, b. repeat split; auto. econstructor; eauto.
Qed.

Section Blame.
Context (t : nat) (o : op) (ND : forall k, o <> ODelete k).

Lemma care_steps l : forall h s s', exec h s -> steps s l s' -> (forall x, ~ In (ERet t x) l) -> pc_op (s_thr s t) = Some o -> care (s_mem s) (s_thr s t) ->
  blame s l s' t \/ care (s_mem s') (s_thr s' t).
Proof.
  induction l as [|e l IH]; intros h s s' E ST NR EO C; [inversion ST; subst; auto|].
  inversion ST as [|? ? s1 ? ? S1 S2]; subst. pose proof (exec_step _ _ _ _ E S1) as E1.
  assert (NR1 : forall x, ~ In (ERet t x) l) by (intros x X; apply (NR x); now right).
  destruct (Nat.eq_dec (ev_thread e) t) as [TE|NE].
  - assert (X : care (s_mem s1) (s_thr s1 t) /\ pc_op (s_thr s1 t) = Some o).
    { inversion S1 as [u o' EI VO|u o' r ER|u first nd m' p' RD SG]; subst; cbn [ev_thread s_mem s_thr] in *; subst; rewrite ?upd_eq.
      - rewrite EI in EO. discriminate.
      - exfalso. apply (NR r). now left.
      - split; [exact (care_own h s E _ o ND _ _ _ _ RD EO C SG)|]. now rewrite (op_step _ _ _ _ _ _ SG). }
    destruct X as (C1 & EO1). destruct (IH _ _ _ E1 S2 NR1 EO1 C1) as [B|B]; [left; eapply blame_later; eauto|now right].
  - destruct (touches_dec s s1) as [TC|SAME].
    + left. exists [], e, l, s, s1. repeat split; auto. constructor.
    + destruct (care_other _ _ _ _ _ E S1 NE SAME C) as (C1 & ET). rewrite <- ET in EO.
      destruct (IH _ _ _ E1 S2 NR1 EO C1) as [B|B]; [left; eapply blame_later; eauto|now right].
Qed.

Lemma start_steps h s l s' : exec h s -> steps s l s' -> s_thr s t = PStart o -> In (ETau t) l -> (forall x, ~ In (ERet t x) l) ->
  blame s l s' t \/ care (s_mem s') (s_thr s' t).
Proof.
  revert h s. induction l as [|e l IH]; intros h s E ST P0 IN NR; [contradiction|].
  inversion ST as [|? ? s1 ? ? S1 S2]; subst. pose proof (exec_step _ _ _ _ E S1) as E1.
  assert (NR1 : forall x, ~ In (ERet t x) l) by (intros x X; apply (NR x); now right).
  destruct (Nat.eq_dec (ev_thread e) t) as [TE|NE].
  - assert (X : care (s_mem s1) (s_thr s1 t) /\ pc_op (s_thr s1 t) = Some o).
    { destruct (GI_exec _ _ E) as (r & A & S & G). pose proof (g_rep _ _ _ _ _ G) as K.
      inversion S1 as [u o' EI VO|u o' r0 ER|u first nd m' p' RD SG]; subst; cbn [ev_thread s_mem s_thr] in *; subst; rewrite ?upd_eq; try congruence.
      rewrite P0 in SG. pose proof (op_step _ _ _ _ _ _ SG) as OP. split; [|exact OP]. cbn [tstep] in SG. destruct first.
      - rewrite (k_root _ _ _ K) in SG. injection SG as <- <-. left. apply (k_root _ _ _ K).
      - destruct (k_dummy _ _ _ K) as (c & Hc). rewrite (get_ver_ok _ _ _ Hc) in SG. cbn [lift] in SG. destruct (locked (c_ver c)) eqn:L; [discriminate|].
        injection SG as <- <-. split; [now exists c|exact L]. }
    destruct X as (C1 & EO1). destruct (care_steps _ _ _ _ E1 S2 NR1 EO1 C1) as [B|B]; [left; eapply blame_later; eauto|now right].
  - assert (P0' : s_thr s1 t = PStart o) by (inversion S1; subst; cbn [s_thr ev_thread] in *; now rewrite upd_ne by auto).
    destruct IN as [->|IN]; [now destruct NE|]. destruct (IH _ _ E1 S2 P0' IN NR1) as [B|B]; [left; eapply blame_later; eauto|now right].
Qed.

Theorem restart_blame h s l s' : exec h s -> steps s l s' -> s_thr s t = PStart o -> In (ETau t) l -> (forall x, ~ In (ERet t x) l) ->
  s_thr s' t = PStart o -> blame s l s' t.
Proof. intros E ST P0 IN NR P1. destruct (start_steps _ _ _ _ E ST P0 IN NR) as [B|B]; [exact B|]. now rewrite P1 in B. Qed.
End Blame.

(** ** Field by field *)
Lemma fblame_later s e s1 l s' t : fstep s e s1 -> fblame s1 l s' t -> fblame s (e :: l) s' t.
Proof.
  intros ST (l1 & e1 & l2 & a & b & -> & S1 & S2 & S3 & NE & TC). exists (e :: l1), e1, l2, a, b. repeat split; auto. econstructor; eauto.
Qed.

Lemma blame_own s l s' t : Forall (fun e => ev_thread e = t) l -> ~ blame s l s' t.
Proof.
  intros FA (l1 & e & l2 & a & b & -> & _ & _ & _ & NE & _). rewrite Forall_forall in FA. apply NE. apply FA. apply in_or_app. right. now left.
Qed.

Lemma sim_ver s cs n c : Sim s cs -> cell_of cs n = Some c -> exists c', fcell s n = Some c' /\ c_ver c' = c_ver c.
Proof.
  intros SM Hc. unfold fcell. destruct (nth_error (m_cells (fs_mem s)) n) as [c'|] eqn:H.
  - exists c'. split; auto. destruct (sm_cell _ _ SM n c' H) as (d & D & V & _). unfold cell_at in D. unfold cell_of in Hc. congruence.
  - exfalso. apply nth_error_None in H. pose proof (sm_len _ _ SM) as L. unfold mlen in L. unfold cell_of in Hc.
    assert (X : n < length (m_cells (s_mem cs))) by (apply nth_error_Some; congruence). lia.
Qed.

Lemma touches_sim s cs s1 cs1 : Sim s cs -> Sim s1 cs1 -> touches cs cs1 -> ftouches s s1.
Proof.
  intros SM SM1 (n & c & c' & Hc & Hc' & NV). destruct (sim_ver _ _ _ _ SM Hc) as (d & D & V). destruct (sim_ver _ _ _ _ SM1 Hc') as (d' & D' & V').
  exists n, d, d'. repeat split; auto. congruence.
Qed.

(** One field step of somebody else. *)
Lemma fcare_other hc s cs e s1 t : exec hc cs -> Sim s cs -> fstep s e s1 -> ev_thread e <> t ->
  ftouches s s1 \/ exists l cs1, steps cs l cs1 /\ Sim s1 cs1 /\ s_thr cs1 t = s_thr cs t /\ (care (s_mem cs) (s_thr cs t) -> care (s_mem cs1) (s_thr cs1 t)).
Proof.
  intros E SM ST NE.
  assert (ONE : forall ce cs1, step cs ce cs1 -> ev_thread ce <> t -> Sim s1 cs1 ->
    ftouches s s1 \/ exists l cs1, steps cs l cs1 /\ Sim s1 cs1 /\ s_thr cs1 t = s_thr cs t /\ (care (s_mem cs) (s_thr cs t) -> care (s_mem cs1) (s_thr cs1 t))).
  { intros ce cs1 S1 N1 SM1. destruct (touches_dec cs cs1) as [TC|SAME]; [left; eapply touches_sim; eauto|right].
    exists [ce], cs1. split; [econstructor; eauto; constructor|]. split; auto. split.
    - inversion S1; subst; cbn [s_thr ev_thread] in *; now rewrite upd_ne by auto.
    - intros C. now apply (care_other _ _ _ _ _ E S1 N1 SAME C). }
  destruct ST as [u o ET VO|u o r ET|u first m' x' H]; cbn [ev_thread] in NE.
  - pose proof (sm_thr _ _ SM u) as EP. rewrite ET in EP. eapply (ONE (ECall u o)); [apply step_call; eauto|exact NE|]. apply (pure_move _ _ SM). now rewrite ET.
  - pose proof (sm_thr _ _ SM u) as EP. rewrite ET in EP. eapply (ONE (ERet u r)); [eapply step_ret; eauto|exact NE|]. apply (pure_move _ _ SM). now rewrite ET.
  - destruct (sim_tau hc s cs SM E u first m' x' H) as (l & cs' & STS & FA & SM' & _ & LE). destruct LE as [LE|(c & cf & _ & Hc & ->)].
    + inversion STS as [|? e c1 l' ? ST1 ST2]; subst.
      * right. exists [], cs'. split; [constructor|]. auto.
      * destruct l' as [|e2 l']; [|cbn in LE; lia]. inversion ST2; subst. inversion FA; subst. eapply ONE; eauto.
    + left. exists c, cf, (mkCell (c_ver cf + 2) (c_node cf)). split; [exact Hc|]. split; [|cbn [c_ver]; lia].
      unfold fcell. cbn [fs_mem]. change (nth_error (m_cells (set_ver (fs_mem s) c (c_ver cf + 2))) c) with (cell_at (set_ver (fs_mem s) c (c_ver cf + 2)) c).
      rewrite (cell_set_ver _ _ cf) by auto. now rewrite Nat.eqb_refl.
Qed.

Section FBlame.
Context (t : nat) (o : op) (ND : forall k, o <> ODelete k).

Lemma op_steps l : forall s s', steps s l s' -> Forall (fun e => e = ETau t) l -> pc_op (s_thr s' t) = pc_op (s_thr s t).
Proof.
  induction l as [|e l IH]; intros s s' ST FA; inversion ST as [|? ? s1 ? ? S1 S2]; subst; auto. inversion FA as [|? ? EE FA1]; subst.
  rewrite (IH _ _ S2 FA1). inversion S1 as [| |u first nd m' p' RD SG]; subst. cbn [s_thr]. rewrite upd_eq. eapply op_step; eauto.
Qed.
Lemma taus_thread l : Forall (fun e => e = ETau t) l -> Forall (fun e => ev_thread e = t) l /\ forall x, ~ In (ERet t x) l.
Proof.
  intros FA. split.
  - eapply Forall_impl; [|exact FA]. now intros e ->.
  - intros x X. rewrite Forall_forall in FA. specialize (FA _ X). discriminate.
Qed.

Lemma fcare_steps l : forall hc s cs s', exec hc cs -> Sim s cs -> fsteps s l s' -> (forall x, ~ In (ERet t x) l) ->
  pc_op (s_thr cs t) = Some o -> care (s_mem cs) (s_thr cs t) ->
  fblame s l s' t \/ exists cs', Sim s' cs' /\ care (s_mem cs') (s_thr cs' t).
Proof.
  induction l as [|e l IH]; intros hc s cs s' E SM ST NR EO C; [inversion ST; subst; eauto|].
  inversion ST as [|? ? s1 ? ? S1 S2]; subst.
  assert (NR1 : forall x, ~ In (ERet t x) l) by (intros x X; apply (NR x); now right).
  destruct (Nat.eq_dec (ev_thread e) t) as [TE|NE].
  - assert (X : exists lc cs1, steps cs lc cs1 /\ Forall (fun e => e = ETau t) lc /\ Sim s1 cs1).
    { destruct S1 as [u o' ET VO|u o' r ET|u first m' x' H]; cbn [ev_thread] in TE; subst u.
      - rewrite (sm_thr _ _ SM), ET in EO. discriminate.
      - exfalso. apply (NR r). now left.
      - destruct (sim_tau hc s cs SM E t first m' x' H) as (lc & cs1 & STS & FA & SM1 & _). eauto. }
    destruct X as (lc & cs1 & STS & FA & SM1). destruct (taus_thread _ FA) as (FT & FR). pose proof (steps_exec _ _ _ STS _ E) as E1.
    destruct (care_steps t o ND lc _ _ _ E STS FR EO C) as [B|C1]; [now destruct (blame_own _ _ _ _ FT B)|].
    rewrite <- (op_steps _ _ _ STS FA) in EO. destruct (IH _ _ _ _ E1 SM1 S2 NR1 EO C1) as [B|B]; [left; eapply fblame_later; eauto|now right].
  - destruct (fcare_other _ _ _ _ _ _ E SM S1 NE) as [TC|(lc & cs1 & STS & SM1 & ET & CC)].
    + left. exists [], e, l, s, s1. repeat split; auto. constructor.
    + pose proof (steps_exec _ _ _ STS _ E) as E1. rewrite <- ET in EO.
      destruct (IH _ _ _ _ E1 SM1 S2 NR1 EO (CC C)) as [B|B]; [left; eapply fblame_later; eauto|now right].
Qed.

Lemma fstart_steps l : forall hc s cs s', exec hc cs -> Sim s cs -> fsteps s l s' -> fs_thr s t = TAt (PStart o) -> In (ETau t) l -> (forall x, ~ In (ERet t x) l) ->
  fblame s l s' t \/ exists cs', Sim s' cs' /\ care (s_mem cs') (s_thr cs' t).
Proof.
  induction l as [|e l IH]; intros hc s cs s' E SM ST P0 IN NR; [contradiction|].
  inversion ST as [|? ? s1 ? ? S1 S2]; subst.
  assert (NR1 : forall x, ~ In (ERet t x) l) by (intros x X; apply (NR x); now right).
  assert (PC : s_thr cs t = PStart o) by (now rewrite (sm_thr _ _ SM), P0).
  destruct (Nat.eq_dec (ev_thread e) t) as [TE|NE].
  - assert (X : exists lc cs1, steps cs lc cs1 /\ Forall (fun e => e = ETau t) lc /\ lc <> [] /\ Sim s1 cs1).
    { destruct S1 as [u o' ET VO|u o' r ET|u first m' x' H]; cbn [ev_thread] in TE; subst u; try congruence.
      destruct (sim_tau hc s cs SM E t first m' x' H) as (lc & cs1 & STS & FA & SM1 & LO & _). exists lc, cs1. split; auto. split; auto. split; auto.
      intros ->. specialize (LO eq_refl). rewrite P0 in LO, H. cbn [fgo reads] in H. destruct (tstep first newNode4 (fs_mem s) (PStart o)); [discriminate|].
      injection H as <- <-. inversion LO. }
    destruct X as (lc & cs1 & STS & FA & NN & SM1). destruct (taus_thread _ FA) as (FT & FR). pose proof (steps_exec _ _ _ STS _ E) as E1.
    assert (INT : In (ETau t) lc) by (destruct lc; [now destruct NN|]; inversion FA; subst; now left).
    destruct (start_steps t o ND _ _ _ _ E STS PC INT FR) as [B|C1]; [now destruct (blame_own _ _ _ _ FT B)|].
    assert (EO : pc_op (s_thr cs1 t) = Some o) by (rewrite (op_steps _ _ _ STS FA), PC; reflexivity).
    destruct (fcare_steps _ _ _ _ _ E1 SM1 S2 NR1 EO C1) as [B|B]; [left; eapply fblame_later; eauto|now right].
  - destruct (fcare_other _ _ _ _ _ _ E SM S1 NE) as [TC|(lc & cs1 & STS & SM1 & ET & _)].
    + left. exists [], e, l, s, s1. repeat split; auto. constructor.
    + pose proof (steps_exec _ _ _ STS _ E) as E1.
      assert (P0' : fs_thr s1 t = TAt (PStart o)) by (inversion S1; subst; cbn [fs_thr ev_thread] in *; now rewrite fupd_ne by auto).
      destruct IN as [->|IN]; [now destruct NE|]. destruct (IH _ _ _ _ E1 SM1 S2 P0' IN NR1) as [B|B]; [left; eapply fblame_later; eauto|now right].
Qed.

Theorem frestart_blame h s l s' : fexec h s -> fsteps s l s' -> fs_thr s t = TAt (PStart o) -> In (ETau t) l -> (forall x, ~ In (ERet t x) l) ->
  fs_thr s' t = TAt (PStart o) -> fblame s l s' t.
Proof.
  intros F ST P0 IN NR P1. destruct (sim_exec _ _ F) as (hc & cs & E & SM & _).
  destruct (fstart_steps _ _ _ _ _ E SM ST P0 IN NR) as [B|(cs' & SM' & C)]; [exact B|]. rewrite (sm_thr _ _ SM'), P1 in C. contradiction.
Qed.
End FBlame.
