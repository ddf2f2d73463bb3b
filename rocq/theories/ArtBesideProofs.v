(** * ArtBesideProofs: Gets disturb nobody; two Puts can disturb each other for ever. *)
From Verif Require Import Base BitsModel VecModel ArtNode ArtModel ArtSpec ArtConc ArtConcStep ArtConcSpec ArtConcGlobal ArtConcLin ArtConcSolo
  ArtFine ArtFineSpec ArtFineProofs ArtFineProps ArtBeside.

Lemma running_snoc h e t o : running (h ++ [e]) t o -> e = ECall t o \/ (running h t o /\ forall x, e <> ERet t x).
Proof.
  intros (h1 & h2 & E & N). destruct h2 as [|a h2] using rev_ind.
  - apply app_inj_tail in E as (_ & E). now left.
  - clear IHh2. rewrite app_comm_cons, app_assoc in E. apply app_inj_tail in E as (-> & ->). right. split.
    + exists h1, h2. split; [reflexivity|]. intros x I0. apply (N x). apply in_or_app. now left.
    + intros x ->. apply (N x). apply in_or_app. right. now left.
Qed.

(** Where a Get can be. *)
Definition gpc (k : bytes) (p : pc) : Prop :=
  match p with
  | PCrash o | PRet o _ | PStart o | PRoot o _ | PDum o _ | PLock o _ | PPar o _ _ | PRead0 o _ _ | PRead1 o _ _
  | PRead2 o _ _ _ | PMiss o _ _ | PNext o _ _ _ _ _ _ => o = OGet k
  | _ => False
  end.

Lemma gpc_step first nd m k p m' p' : gpc k p -> tstep first nd m p = SGo m' p' -> m' = m /\ gpc k p'.
Proof.
  intros G ST. destruct p; cbn [gpc] in G; try contradiction; subst; cbn [tstep] in ST; unfold rlock, vcheck, lift, go, crash, retry in ST;
    repeat match type of ST with
    | context [match ?x with _ => _ end] => destruct x eqn:?
    end; try discriminate; injection ST as <- <-; cbn [gpc]; auto;
    repeat match goal with |- context [match ?x with _ => _ end] => destruct x eqn:? end; auto.
Qed.

Lemma gpc_exec h s : exec h s -> forall t k, running h t (OGet k) -> gpc k (s_thr s t).
Proof.
  intros E. induction E as [|h s e s' E IH ST]; intros t k R.
  - destruct R as (h1 & h2 & R & _). now destruct h1.
  - apply running_snoc in R as [->|(R & N)].
    + inversion ST; subst. cbn [s_thr]. rewrite upd_eq. reflexivity.
    + specialize (IH _ _ R). inversion ST as [u o EI VO|u o r ER|u first nd m' p' RD SG]; subst; cbn [s_thr];
        (destruct (Nat.eq_dec u t) as [->|NE]; [rewrite upd_eq|now rewrite upd_ne by auto]).
      * rewrite EI in IH. contradiction.
      * now destruct (N r).
      * now apply (gpc_step _ _ _ _ _ _ _ IH SG).
Qed.

Lemma beside_same t h s h' s' : beside t h s h' s' -> exec h s -> exec h' s' /\ s_mem s' = s_mem s /\ s_thr s' t = s_thr s t.
Proof.
  intros B. induction B as [h s|h s e s1 h' s' ST (NE & G) B IH]; intros E; [auto|].
  destruct (IH (exec_step _ _ _ _ E ST)) as (E' & EM & ET). split; [exact E'|]. rewrite EM, ET. clear IH EM ET.
  inversion ST as [u o EI VO|u o r ER|u first nd m' p' RD SG]; subst; cbn [s_mem s_thr ev_thread] in *; rewrite upd_ne by auto; auto.
  destruct G as (k & G). destruct (gpc_step _ _ _ _ _ _ _ (gpc_exec _ _ E _ _ G) SG) as (-> & _). auto.
Qed.

Lemma passes_of t s : finishes t s -> forall h s1, exec h s1 -> s_mem s1 = s_mem s -> s_thr s1 t = s_thr s t -> passes t h s1.
Proof.
  intros F. induction F as [s o r ER|s EX _ IH]; intros h s1 E EM ET.
  - eapply pa_ret. rewrite ET. exact ER.
  - apply pa_step. intros h' s' B. destruct (beside_same _ _ _ _ _ B E) as (E' & EM' & ET'). rewrite EM in EM'. rewrite ET in ET'. split.
    + destruct EX as (s2 & ST). inversion ST as [| |u first nd m' p' RD SG]; subst. eexists. eapply step_tau; rewrite EM', ET'; eauto.
    + intros s2 ST. pose proof (exec_step _ _ _ _ E' ST) as E2. inversion ST as [| |u first nd m' p' RD SG]; subst. rewrite EM', ET' in RD, SG.
      eapply (IH _ (step_tau s t first nd m' p' RD SG)); cbn [s_mem s_thr]; rewrite ?upd_eq; auto.
Qed.

Theorem beside_gets h s t o : exec h s -> (forall n, lockbit s n = false) -> s_thr s t = PIdle -> valid_op o -> (forall k, o <> ODelete k) ->
  passes t (h ++ [ECall t o]) (mkSys (s_mem s) (upd_thr (s_thr s) t (PStart o))).
Proof.
  intros E NL ET VO ND. eapply passes_of; [eapply runs_alone; eauto| |reflexivity|reflexivity].
  econstructor; [exact E|]. now apply step_call.
Qed.

(** ** Field by field *)
Inductive grd (k : bytes) : rd -> Prop :=
  | g_done p : gpc k p -> grd k (RDone p)
  | g_num c : (forall x, grd k (c x)) -> grd k (RNum c)
  | g_plen c : (forall x, grd k (c x)) -> grd k (RPlen c)
  | g_word c : (forall x, grd k (c x)) -> grd k (RWord c)
  | g_leaf c : (forall x, grd k (c x)) -> grd k (RLeaf c)
  | g_pre i c : (forall x, grd k (c x)) -> grd k (RPre i c)
  | g_key i c : (forall x, grd k (c x)) -> grd k (RKey i c)
  | g_child i c : (forall x, grd k (c x)) -> grd k (RChild i c)
  | g_idx i c : (forall x, grd k (c x)) -> grd k (RIdx i c).

Definition fgpc (k : bytes) (x : ft) : Prop :=
  match x with TAt p => gpc k p | TRd p _ r => gpc k p /\ grd k r | _ => False end.

Lemma grd_orc {A} k (x : res A) c : (forall a, grd k (c a)) -> grd k (orc (OGet k) x c).
Proof. intros H. destruct x; cbn; auto; constructor; reflexivity. Qed.
Lemma grd_find4 k b c : (forall a, grd k (c a)) -> forall fuel i, grd k (find4_rd (OGet k) b c fuel i).
Proof.
  intros H. induction fuel as [|fuel IH]; intros i; cbn [find4_rd]; [constructor; reflexivity|]. constructor. intros num. destruct (Nat.ltb i num); [|auto].
  constructor. intros x. apply grd_orc. intros y. destruct (Nat.eqb y b); [|auto]. constructor. intros z. apply grd_orc. auto.
Qed.
Lemma grd_find16 k b c : (forall a, grd k (c a)) -> forall fuel i, grd k (find16_rd (OGet k) b c fuel i).
Proof.
  intros H. induction fuel as [|fuel IH]; intros i; cbn [find16_rd]; [auto|]. constructor. intros x. apply grd_orc. intros y. destruct (Nat.eqb y b); [|auto].
  constructor. intros num. destruct (Nat.ltb i num); [|auto]. constructor. intros z. apply grd_orc. auto.
Qed.
Lemma grd_find k b c t : (forall a, grd k (c a)) -> grd k (find_rd (OGet k) b c t).
Proof.
  intros H. destruct t; cbn [find_rd]; auto using grd_find4, grd_find16.
  - constructor. intros x. apply grd_orc. intros y. destruct (Nat.ltb 0 y); [|auto]. constructor. intros z. apply grd_orc. auto.
  - constructor. intros z. apply grd_orc. auto.
Qed.
Lemma grd_rprog k t pt p : gpc k p -> grd k (rprog t pt p).
Proof.
  intros G. destruct p; cbn [gpc] in G; try contradiction; subst; cbn [rprog op_key]; try (constructor; reflexivity).
  - constructor. intros x. constructor. destruct (Nat.eqb x 0); reflexivity.
  - constructor. intros x. cbn zeta. destruct (Nat.ltb _ _); [constructor; reflexivity|]. constructor. intros w. apply grd_orc. intros y. constructor.
    destruct (beqb y w); reflexivity.
  - destruct (Nat.eqb d (length k)); [constructor; intros x; constructor; reflexivity|]. destruct (Nat.ltb d (length k)); [|constructor; reflexivity].
    apply grd_orc. intros b. apply grd_find. intros ((a & i) & j). constructor. reflexivity.
Qed.
Lemma grd_rstep k n r : grd k r -> grd k (rstep n r).
Proof. intros G. destruct G; cbn [rstep]; auto. now constructor. Qed.
Lemma gpc_crash k p : gpc k p -> fgpc k (crashed p).
Proof. intros G. destruct p; cbn in *; try contradiction; auto. Qed.

Lemma fgpc_step first m k x m' x' : fgpc k x -> fgo first m x = Some (m', x') -> m' = m /\ fgpc k x'.
Proof.
  intros G ST. destruct x as [p|p a r|p ws fn|l c p]; cbn [fgpc] in G; try contradiction.
  - unfold fgo in ST. destruct (reads p) as [(a & v)|] eqn:R.
    + unfold tri in ST. destruct (get_node m a); injection ST as <- <-; split; auto using gpc_crash. split; [exact G|]. now apply grd_rprog.
    + assert (ST' : (match tstep first newNode4 m p with SGo m' p' => Some (m', TAt p') | SBlock => None end) = Some (m', x'))
        by (destruct p; cbn [gpc] in G; try contradiction; exact ST).
      clear ST. destruct (tstep first newNode4 m p) as [|m1 p1] eqn:T; [discriminate|]. injection ST' as <- <-. cbn [fgpc]. eapply gpc_step; eauto.
  - destruct G as (G & GR). destruct GR; cbn [fgo] in ST; [injection ST as <- <-; auto|..]; unfold tri in ST;
      (destruct (get_node m a); injection ST as <- <-; split; auto using gpc_crash; split; [exact G|cbn [rstep]; auto]).
Qed.

Lemma fgpc_exec h s : fexec h s -> forall t k, running h t (OGet k) -> fgpc k (fs_thr s t).
Proof.
  intros E. induction E as [|h s e s' E IH ST]; intros t k R.
  - destruct R as (h1 & h2 & R & _). now destruct h1.
  - apply running_snoc in R as [->|(R & N)].
    + inversion ST; subst. cbn [fs_thr]. rewrite fupd_eq. reflexivity.
    + specialize (IH _ _ R). inversion ST as [u o EI VO|u o r ER|u first m' x' SG]; subst; cbn [fs_thr];
        (destruct (Nat.eq_dec u t) as [->|NE]; [rewrite fupd_eq|now rewrite fupd_ne by auto]).
      * rewrite EI in IH. contradiction.
      * now destruct (N r).
      * now apply (fgpc_step _ _ _ _ _ _ IH SG).
Qed.

Lemma fbeside_same t h s h' s' : fbeside t h s h' s' -> fexec h s -> fexec h' s' /\ fs_mem s' = fs_mem s /\ fs_thr s' t = fs_thr s t.
Proof.
  intros B. induction B as [h s|h s e s1 h' s' ST (NE & G) B IH]; intros E; [auto|].
  destruct (IH (fexec_step _ _ _ _ E ST)) as (E' & EM & ET). split; [exact E'|]. rewrite EM, ET. clear IH EM ET.
  inversion ST as [u o EI VO|u o r ER|u first m' x' SG]; subst; cbn [fs_mem fs_thr ev_thread] in *; rewrite fupd_ne by auto; auto.
  destruct G as (k & G). destruct (fgpc_step _ _ _ _ _ _ (fgpc_exec _ _ E _ _ G) SG) as (-> & _). auto.
Qed.

Lemma fpasses_of t s : ffinishes t s -> forall h s1, fexec h s1 -> fs_mem s1 = fs_mem s -> fs_thr s1 t = fs_thr s t -> fpasses t h s1.
Proof.
  intros F. induction F as [s o r ER|s EX _ IH]; intros h s1 E EM ET.
  - eapply fpa_ret. rewrite ET. exact ER.
  - apply fpa_step. intros h' s' B. destruct (fbeside_same _ _ _ _ _ B E) as (E' & EM' & ET'). rewrite EM in EM'. rewrite ET in ET'. split.
    + destruct EX as (s2 & ST). inversion ST as [| |u first m' x' SG]; subst. eexists. eapply fst_tau; rewrite EM', ET'; eauto.
    + intros s2 ST. pose proof (fexec_step _ _ _ _ E' ST) as E2. inversion ST as [| |u first m' x' SG]; subst. rewrite EM', ET' in SG.
      eapply (IH _ (fst_tau s t first m' x' SG)); cbn [fs_mem fs_thr]; rewrite ?fupd_eq; auto.
Qed.

Theorem fbeside_gets h s t o : fexec h s -> (forall n, flockbit s n = false) -> fs_thr s t = TAt PIdle -> valid_op o -> (forall k, o <> ODelete k) ->
  fpasses t (h ++ [ECall t o]) (mkFS (fs_mem s) (fupd (fs_thr s) t (TAt (PStart o)))).
Proof.
  intros E NL ET VO ND. eapply fpasses_of; [eapply fine_runs_alone; eauto| |reflexivity|reflexivity].
  econstructor; [exact E|]. now apply fst_call.
Qed.
