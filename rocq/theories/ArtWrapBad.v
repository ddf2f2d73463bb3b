(** * ArtWrapBad: with version words of 64 bits, a Get that sleeps while 2^62 operations
    complete can miss a key that is stored all the time. *)
From Verif Require Import Base BitsModel VecModel ArtNode ArtModel ArtSpec ArtConc ArtConcSpec ArtConcRun ArtFine ArtFineRun ArtFineProofs ArtWrap ArtWrapProofs.

(** ** Histories in which a key is put, never deleted, and not found afterwards *)
(** Goroutine 2 only puts [k]; goroutine 1 only gets [k], after that; nobody deletes [k]. *)
Definition put_first (k v : bytes) (h : list ev) : Prop :=
  (forall t, ~ In (ECall t (ODelete k)) h) /\ (forall o, In (ECall 2 o) h -> o = OPut k v) /\
  (forall h1 o h2, h = h1 ++ ECall 1 o :: h2 -> o = OGet k /\ In (ERet 2 None) h1).

Lemma put_first_snoc k v h e : put_first k v (h ++ [e]) -> put_first k v h.
Proof.
  intros (A & B & C). split; [|split].
  - intros t X. apply (A t). apply in_or_app. auto.
  - intros o X. apply B. apply in_or_app. auto.
  - intros h1 o h2 ->. apply (C h1 o (h2 ++ [e])). rewrite <- app_assoc. reflexivity.
Qed.

Lemma latest_some k v L : In (OPut k v) L -> ~ In (ODelete k) L -> latest L k <> None.
Proof.
  induction L as [|o L IH]; intros P D; [destruct P|].
  assert (D' : ~ In (ODelete k) L) by (intros X; apply D; now right).
  destruct P as [->|P].
  - cbn. replace (beqb k k) with true by (symmetry; now apply beqb_eq). discriminate.
  - specialize (IH P D'). destruct o; cbn [latest]; auto; match goal with |- context [beqb ?x k] => destruct (beqb x k) eqn:E end; auto; try discriminate.
    apply beqb_eq in E. subst. exfalso. apply D. now left.
Qed.

Lemma put_first_lin k v h L st : lin h L st -> put_first k v h ->
  ~ In (ODelete k) L /\ (forall t, st t <> SPend (ODelete k)) /\
  (forall o, st 2 = SPend o -> o = OPut k v) /\ (forall o r, st 2 = SDone o r -> In (OPut k v) L) /\
  (forall r, In (ERet 2 r) h -> In (OPut k v) L) /\
  (forall o, st 1 = SPend o -> o = OGet k /\ In (ERet 2 None) h) /\ (forall o r, st 1 = SDone o r -> r <> None) /\
  ~ In (ERet 1 None) h.
Proof.
  induction 1 as [st I|h L st t o st' LI IH ID CH|h L st t o r st' LI IH DN CH|h L st t LI IH|h L st t o st' LI IH PE CH]; intros PF.
  - repeat split; auto; try (intros; rewrite I in *; discriminate); intros ? [].
  - destruct (IH (put_first_snoc _ _ _ _ PF)) as (A & B & C & D & E & F & G & J). clear IH. destruct PF as (P1 & P2 & P3). destruct CH as (C1 & C2).
    split; [auto|]. split.
    { intros u X. destruct (Nat.eq_dec u t) as [->|N]; [|rewrite C2 in X by auto; exact (B _ X)].
      rewrite C1 in X. injection X as ->. apply (P1 t). apply in_or_app. right. now left. }
    split.
    { intros o' X. destruct (Nat.eq_dec 2 t) as [<-|N]; [|rewrite C2 in X by auto; auto].
      rewrite C1 in X. injection X as <-. apply P2. apply in_or_app. right. now left. }
    split.
    { intros o' r' X. destruct (Nat.eq_dec 2 t) as [<-|N]; [congruence|rewrite C2 in X by auto; eauto]. }
    split. { intros r' X. apply in_app_or in X as [X|[X|[]]]; [eauto|discriminate]. }
    split.
    { intros o' X. destruct (Nat.eq_dec 1 t) as [<-|N].
      - rewrite C1 in X. injection X as <-. destruct (P3 h o [] eq_refl) as (-> & R). split; auto. apply in_or_app. auto.
      - rewrite C2 in X by auto. destruct (F _ X). split; auto. apply in_or_app. auto. }
    split. { intros o' r' X. destruct (Nat.eq_dec 1 t) as [<-|N]; [congruence|rewrite C2 in X by auto; eauto]. }
    intros X. apply in_app_or in X as [X|[X|[]]]; [auto|discriminate].
  - destruct (IH (put_first_snoc _ _ _ _ PF)) as (A & B & C & D & E & F & G & J). clear IH. destruct CH as (C1 & C2).
    split; [auto|]. split. { intros u X. destruct (Nat.eq_dec u t) as [->|N]; [congruence|rewrite C2 in X by auto; exact (B _ X)]. }
    split. { intros o' X. destruct (Nat.eq_dec 2 t) as [<-|N]; [congruence|rewrite C2 in X by auto; auto]. }
    split. { intros o' r' X. destruct (Nat.eq_dec 2 t) as [<-|N]; [congruence|rewrite C2 in X by auto; eauto]. }
    split. { intros r' X. apply in_app_or in X as [X|[X|[]]]; [eauto|]. injection X as -> ->. eauto. }
    split. { intros o' X. destruct (Nat.eq_dec 1 t) as [<-|N]; [congruence|rewrite C2 in X by auto]. destruct (F _ X). split; auto. apply in_or_app. auto. }
    split. { intros o' r' X. destruct (Nat.eq_dec 1 t) as [<-|N]; [congruence|rewrite C2 in X by auto; eauto]. }
    intros X. apply in_app_or in X as [X|[X|[]]]; [auto|]. injection X as -> ->. exact (G _ _ DN eq_refl).
  - destruct (IH (put_first_snoc _ _ _ _ PF)) as (A & B & C & D & E & F & G & J). clear IH.
    split; [auto|]. split; [auto|]. split; [auto|]. split; [auto|].
    split. { intros r' X. apply in_app_or in X as [X|[X|[]]]; [eauto|discriminate]. }
    split. { intros o' X. destruct (F _ X). split; auto. apply in_or_app. auto. }
    split; [auto|]. intros X. apply in_app_or in X as [X|[X|[]]]; [auto|discriminate].
  - destruct (IH PF) as (A & B & C & D & E & F & G & J). clear IH. destruct CH as (C1 & C2).
    split. { intros [X|X]; [|auto]. subst o. exact (B _ PE). }
    split. { intros u X. destruct (Nat.eq_dec u t) as [->|N]; [congruence|rewrite C2 in X by auto; exact (B _ X)]. }
    split. { intros o' X. destruct (Nat.eq_dec 2 t) as [<-|N]; [congruence|rewrite C2 in X by auto; auto]. }
    split.
    { intros o' r' X. destruct (Nat.eq_dec 2 t) as [<-|N]; [|right; rewrite C2 in X by auto; eauto]. left. now apply C. }
    split. { intros r' X. right. eauto. }
    split. { intros o' X. destruct (Nat.eq_dec 1 t) as [<-|N]; [congruence|rewrite C2 in X by auto; auto]. }
    split; [|auto].
    intros o' r' X. destruct (Nat.eq_dec 1 t) as [<-|N]; [|rewrite C2 in X by auto; eauto].
    rewrite C1 in X. injection X as <- <-. destruct (F _ PE) as (-> & R). cbn [answer]. apply (latest_some k v); eauto.
Qed.

Lemma put_first_not_lin k v h : put_first k v h -> In (ERet 1 None) h -> ~ linearizable h.
Proof. intros PF R (L & st & LI). exact (proj2 (proj2 (proj2 (proj2 (proj2 (proj2 (proj2 (put_first_lin _ _ _ _ _ LI PF))))))) R). Qed.

Definition harmless (k : bytes) (e : ev) : Prop :=
  match e with ECall t o => t <> 1 /\ t <> 2 /\ o <> ODelete k | _ => True end.
Lemma put_first_more k v h h' : put_first k v h -> Forall (harmless k) h' -> put_first k v (h ++ h').
Proof.
  intros PF. induction h' as [|e h' IH] using rev_ind; intros F; [now rewrite app_nil_r|].
  apply Forall_app in F as (F & FE). inversion FE as [|e' l HE _]; subst. rewrite app_assoc. destruct (IH F) as (A & B & C). split; [|split].
  - intros t X. apply in_app_or in X as [X|[X|[]]]; [exact (A _ X)|]. subst e. destruct HE as (_ & _ & HE). now apply HE.
  - intros o X. apply in_app_or in X as [X|[X|[]]]; [exact (B _ X)|]. subst e. destruct HE as (_ & HE & _). now destruct HE.
  - intros h1 o h2 X. destruct h2 as [|x h2 _] using rev_ind.
    + apply app_inj_tail in X as (_ & ->). destruct HE as (HE & _). now destruct HE.
    + rewrite app_comm_cons, app_assoc in X. apply app_inj_tail in X as (X & _). exact (C _ _ _ X).
Qed.
Lemma put_first_get k v h : put_first k v h -> In (ERet 2 None) h -> put_first k v (h ++ [ECall 1 (OGet k)]).
Proof.
  intros (A & B & C) R. split; [|split].
  - intros t X. apply in_app_or in X as [X|[X|[]]]; [exact (A _ X)|discriminate].
  - intros o X. apply in_app_or in X as [X|[X|[]]]; [exact (B _ X)|discriminate].
  - intros h1 o h2 X. destruct h2 as [|x h2 _] using rev_ind.
    + apply app_inj_tail in X as (-> & X). injection X as <-. auto.
    + rewrite app_comm_cons, app_assoc in X. apply app_inj_tail in X as (X & _). exact (C _ _ _ X).
Qed.

(** ** The run *)
(** The root holds [1] and [2]; goroutine 1 looks for [2], has found its byte in the second
    slot and is about to load the child; goroutine 0 deletes [1], which moves [2] to the first
    slot. *)
Definition kb : bytes := [2].
Definition opP : op := OPut kb [2].
Definition entire (t : nat) (o : op) : list (nat * act) := [(t, ACall o); (t, AFin); (t, ARet)].
Definition start : list (nat * act) :=
  entire 0 (OPut [1] [1]) ++ entire 2 opP ++ [(1, ACall (OGet kb)); (1, ASteps 12)] ++ entire 0 (ODelete [1]).
Definition start_state : fsys := match frun finit start with Some (_, s) => s | None => finit end.
Definition start_events : list ev := match frun finit start with Some (h, _) => h | None => [] end.
Lemma start_exec : wexec start_events start_state.
Proof.
  apply wrap_same; [vm_compute; reflexivity|]. unfold start_events, start_state.
  destruct (frun finit start) as [(h, s)|] eqn:E; [|vm_compute in E; discriminate].
  exact (frun_exec start finit [] h s fexec_nil E).
Qed.

Definition nd0 : node := Eval vm_compute in match nth_error (m_cells (fs_mem start_state)) 0 with Some c => c_node c | None => newNode4 end.
Definition nd1 : node := Eval vm_compute in match nth_error (m_cells (fs_mem start_state)) 1 with Some c => c_node c | None => newNode4 end.
Definition between (r : N) : mem := mkMem [mkCell 0 nd0; mkCell r nd1] (PNode 1).
Definition sleeper : ft := fs_thr start_state 1.

(** [n] steps of one goroutine. *)
Inductive solo : nat -> mem -> ft -> mem -> ft -> Prop :=
  | solo_nil m x : solo 0 m x m x
  | solo_step n m x m' x' mz xz : wgo false m x = Some (m', x') -> solo n m' x' mz xz -> solo (S n) m x mz xz.

Lemma solo_exec t n m x mz xz : solo n m x mz xz -> forall h s, wexec h s -> fs_mem s = m -> fs_thr s t = x ->
  exists s', wexec (h ++ repeat (ETau t) n) s' /\ fs_mem s' = mz /\ fs_thr s' t = xz /\ forall u, u <> t -> fs_thr s' u = fs_thr s u.
Proof.
  induction 1 as [m x|n m x m' x' mz xz G _ IH]; intros h s E EM EX; cbn [repeat].
  - exists s. rewrite app_nil_r. auto.
  - rewrite <- EM, <- EX in G. destruct (IH (h ++ [ETau t]) (mkFS m' (fupd (fs_thr s) t x'))) as (s' & E' & M' & X' & O').
    + econstructor; [exact E|]. eapply wst_tau. exact G.
    + reflexivity.
    + cbn [fs_thr]. apply fupd_eq.
    + exists s'. rewrite <- app_assoc in E'. split; [exact E'|]. split; auto. split; auto. intros u N. rewrite O' by auto. cbn [fs_thr]. now apply fupd_ne.
Qed.

(** Goroutine 0 puts [2] once more. *)
Lemma put_again r s r' : w64 0 = 0%N -> w64 r = r -> w64 (r + 2) = s -> w64 s = s -> w64 (s + 2) = r' -> w64 r' = r' ->
  N.testbit r 0 = false -> N.testbit r 1 = false ->
  solo 27 (between r) (TAt (PStart opP)) (between r') (TAt (PRet opP None)).
Proof.
  intros W0 WR W2 WS W4 WR' R0 R1.
  do 27 (eapply solo_step; [repeat (progress (cbv -[N.testbit N.eqb N.add w64]; rewrite ?W0, ?WR, ?W2, ?WS, ?W4, ?WR', ?R0, ?R1, ?N.eqb_refl)); reflexivity|]).
  apply solo_nil.
Qed.

Definition ver (n : nat) : N := w64 (12 + 4 * N.of_nat n).
Lemma w64_w64 x : w64 (w64 x) = w64 x.
Proof. unfold w64. apply N.mod_mod. discriminate. Qed.
Lemma w64_add x y : w64 (w64 x + y) = w64 (x + y).
Proof. unfold w64. apply N.add_mod_idemp_l. discriminate. Qed.
Lemma ver_quiet n : N.testbit (ver n) 0 = false /\ N.testbit (ver n) 1 = false.
Proof.
  unfold ver, w64. change two64 with (4 * 2 ^ 62)%N. replace (12 + 4 * N.of_nat n)%N with (4 * (3 + N.of_nat n))%N by lia.
  rewrite N.mul_mod_distr_l by discriminate. generalize ((3 + N.of_nat n) mod 2 ^ 62)%N. intros x. change 4%N with (2 ^ 2)%N. rewrite N.mul_comm. split; apply N.mul_pow2_bits_low; lia.
Qed.
Lemma ver_next n : w64 (w64 (ver n + 2) + 2) = ver (S n).
Proof. unfold ver. rewrite w64_add, <- N.add_assoc, w64_add. f_equal. lia. Qed.

Definition once : list ev := ECall 0 opP :: repeat (ETau 0) 27 ++ [ERet 0 None].
Fixpoint times (n : nat) : list ev := match n with O => [] | S n => times n ++ once end.
Lemma times_harmless n : Forall (harmless kb) (times n).
Proof.
  induction n as [|n IH]; cbn [times]; [constructor|]. apply Forall_app. split; [exact IH|]. unfold once. constructor.
  - repeat split; discriminate.
  - apply Forall_app. split; [|repeat constructor]. apply Forall_forall. intros e X. apply repeat_spec in X. subst e. exact Logic.I.
Qed.

Lemma rounds_from h0 s0 : wexec h0 s0 -> fs_mem s0 = between (ver 0) -> fs_thr s0 0 = TAt PIdle -> forall n,
  exists s, wexec (h0 ++ times n) s /\ fs_mem s = between (ver n) /\ fs_thr s 0 = TAt PIdle /\ forall u, u <> 0 -> fs_thr s u = fs_thr s0 u.
Proof.
  intros E0 M0 I0. induction n as [|n (s & E & EM & T0 & T1)].
  - exists s0. cbn [times]. rewrite app_nil_r. auto.
  - destruct (ver_quiet n) as (Q0 & Q1).
    assert (P : solo 27 (between (ver n)) (TAt (PStart opP)) (between (ver (S n))) (TAt (PRet opP None))).
    { apply (put_again _ (w64 (ver n + 2))); auto; [apply w64_w64|apply w64_w64|apply ver_next|apply w64_w64]. }
    set (s1 := mkFS (fs_mem s) (fupd (fs_thr s) 0 (TAt (PStart opP)))).
    assert (E1 : wexec ((h0 ++ times n) ++ [ECall 0 opP]) s1).
    { econstructor; [exact E|]. apply wst_call; [exact T0|]. repeat split; repeat constructor; cbn; lia. }
    destruct (solo_exec 0 _ _ _ _ _ P _ s1 E1 EM (fupd_eq _ _ _)) as (s2 & E2 & M2 & X2 & O2).
    exists (mkFS (fs_mem s2) (fupd (fs_thr s2) 0 (TAt PIdle))). cbn [fs_mem fs_thr times]. split.
    + unfold once. replace (h0 ++ times n ++ ECall 0 opP :: repeat (ETau 0) 27 ++ [ERet 0 None]) with ((((h0 ++ times n) ++ [ECall 0 opP]) ++ repeat (ETau 0) 27) ++ [ERet 0 None]) by (rewrite <- !app_assoc; reflexivity).
      econstructor; [exact E2|]. eapply wst_ret. exact X2.
    + split; [exact M2|]. split; [apply fupd_eq|]. intros u N. rewrite fupd_ne, O2 by auto. unfold s1. cbn [fs_thr]. rewrite fupd_ne by auto. now apply T1.
Qed.
Lemma rounds n : exists s, wexec (start_events ++ times n) s /\ fs_mem s = between (ver n) /\ fs_thr s 0 = TAt PIdle /\ fs_thr s 1 = sleeper.
Proof.
  destruct (rounds_from _ _ start_exec) with (n := n) as (s & E & M & I & O); [vm_compute; reflexivity|vm_compute; reflexivity|].
  exists s. split; [exact E|]. split; [exact M|]. split; [exact I|]. apply O. discriminate.
Qed.

(** Goroutine 1 wakes up. *)
Lemma wake : solo 3 (between 8) sleeper (between 8) (TAt (PRet (OGet kb) None)).
Proof. repeat (eapply solo_step; [vm_compute; reflexivity|]). apply solo_nil. Qed.

Lemma start_put_first : put_first kb [2] start_events.
Proof.
  assert (E : start_events = (firstn 68 start_events ++ [ECall 1 (OGet kb)]) ++ skipn 69 start_events) by (vm_compute; reflexivity).
  rewrite E. apply put_first_more.
  - apply put_first_get; [|vm_compute; tauto]. split; [|split].
    + intros t X. vm_compute in X. repeat (destruct X as [X|X]; [discriminate X|]). destruct X.
    + intros o X. vm_compute in X. repeat (destruct X as [X|X]; [try discriminate X; try (injection X as <-; reflexivity)|]). destruct X.
    + intros h1 o h2 X. assert (Y : In (ECall 1 o) (firstn 68 start_events)) by (rewrite X; apply in_or_app; right; now left).
      clear X. vm_compute in Y. repeat (destruct Y as [Y|Y]; [discriminate Y|]). destruct Y.
  - vm_compute. repeat constructor; discriminate.
Qed.

Lemma sleeping n : ver n = 8%N -> exists h s, wexec h s /\ put_first kb [2] h /\ In (ERet 1 None) h.
Proof.
  intros V. destruct (rounds n) as (s & E & EM & _ & T1). rewrite V in EM.
  destruct (solo_exec 1 _ _ _ _ _ wake _ s E EM T1) as (s2 & E2 & _ & X2 & _).
  exists (((start_events ++ times n) ++ repeat (ETau 1) 3) ++ [ERet 1 None]), (mkFS (fs_mem s2) (fupd (fs_thr s2) 1 (TAt PIdle))).
  split; [econstructor; [exact E2|]; eapply wst_ret; exact X2|]. split; [|apply in_or_app; right; now left].
  apply put_first_more; [|repeat constructor]. apply put_first_more; [|repeat constructor].
  apply put_first_more; [exact start_put_first|apply times_harmless].
Qed.

(** 2^62 - 1 Puts make the word of the root, 12 after the Delete, 8 again. *)
Theorem sleeping_get : exists h s, wexec h s /\ put_first kb [2] h /\ In (ERet 1 None) h.
Proof.
  assert (X : exists n, ver n = 8%N) by (exists (N.to_nat (2 ^ 62 - 1)); unfold ver; rewrite N2Nat.id; vm_compute; reflexivity).
  destruct X as (n & X). exact (sleeping n X).
Qed.

(** ** The same Puts with nobody asleep *)
Definition is_ret (t : nat) (e : ev) : bool := match e with ERet u _ => Nat.eqb u t | _ => false end.
(** Every operation called has returned. *)
Fixpoint closed (h : list ev) : bool :=
  match h with
  | [] => true
  | ECall t _ :: h' => existsb (is_ret t) h' && closed h'
  | _ :: h' => closed h'
  end.
Lemma closed_call : forall h h1 t o h2, closed h = true -> h = h1 ++ ECall t o :: h2 -> exists x, In (ERet t x) h2.
Proof.
  induction h as [|e h IH]; intros [|e' h1] t o h2 C E; try discriminate E.
  - injection E as -> ->. cbn [closed] in C. apply andb_prop in C as (C & _). apply existsb_exists in C as ([u r|u r|u] & I & X); try discriminate X.
    cbn in X. apply Nat.eqb_eq in X. subst u. eauto.
  - injection E as -> ->. apply (IH h1 t o h2); auto. destruct e'; cbn [closed] in C; auto. now apply andb_prop in C as (_ & C).
Qed.
Lemma brisk_app A B : closed A = true -> brisk A -> brisk B -> brisk (A ++ B).
Proof.
  intros C BA BB h1 t o h2 h3 E ND. destruct (app_eq_app _ _ _ _ E) as (l & [(-> & X)|(-> & X)]).
  - destruct l as [|e l].
    + cbn in X. apply (BB [] t o h2 h3); auto.
    + injection X as <- X. destruct (app_eq_app _ _ _ _ X) as (k & [(-> & Y)|(-> & Y)]).
      * exfalso. destruct (closed_call _ h1 t o l C eq_refl) as (x & I). apply (ND x). apply in_or_app. now left.
      * apply (BA h1 t o h2 k); auto.
  - apply (BB l t o h2 h3); auto.
Qed.
Lemma brisk_short h : few h -> brisk h.
Proof. intros F h1 t o h2 h3 -> _. unfold few, cap in F. rewrite app_length in F. cbn [length] in F. rewrite app_length in F. lia. Qed.
Definition calm : list (nat * act) := entire 0 (OPut [1] [1]) ++ entire 2 opP ++ entire 0 (ODelete [1]).
Definition calm_state : fsys := match frun finit calm with Some (_, s) => s | None => finit end.
Definition calm_events : list ev := match frun finit calm with Some (h, _) => h | None => [] end.
Lemma calm_exec : wexec calm_events calm_state.
Proof.
  apply wrap_same; [vm_compute; reflexivity|]. unfold calm_events, calm_state.
  destruct (frun finit calm) as [(h, s)|] eqn:E; [|vm_compute in E; discriminate].
  exact (frun_exec calm finit [] h s fexec_nil E).
Qed.
Lemma closed_app A B : closed A = true -> closed B = true -> closed (A ++ B) = true.
Proof.
  intros CA CB. induction A as [|e A IH]; auto. destruct e; cbn [closed app] in *; auto.
  apply andb_prop in CA as (X & Y). apply andb_true_intro. split; auto. rewrite existsb_app, X. reflexivity.
Qed.
Lemma times_closed n : closed (times n) = true.
Proof. induction n as [|n IH]; cbn [times]; [reflexivity|]. apply closed_app; [exact IH|reflexivity]. Qed.
Lemma times_brisk n : brisk (times n).
Proof.
  induction n as [|n IH]; cbn [times]; [apply brisk_short; reflexivity|].
  apply brisk_app; [apply times_closed|exact IH|apply brisk_short; vm_compute; reflexivity].
Qed.
Lemma times_length n : length (times n) = 29 * n.
Proof. induction n as [|n IH]; [reflexivity|]. cbn [times]. rewrite app_length, IH. change (length once) with 29. lia. Qed.

(** An execution in which the root's word wraps around while no operation takes long. *)
Theorem calm_run : exists h s c, wexec h s /\ brisk h /\ (2 ^ 62 <= N.of_nat (length h))%N /\ nth_error (m_cells (fs_mem s)) 1 = Some c /\ c_ver c = 8%N.
Proof.
  assert (X : exists n, ver n = 8%N /\ (2 ^ 61 <= N.of_nat n)%N)
    by (exists (N.to_nat (2 ^ 62 - 1)); unfold ver; rewrite N2Nat.id; split; [vm_compute; reflexivity|apply N.leb_le; vm_compute; reflexivity]).
  destruct X as (n & V & L). destruct (rounds_from _ _ calm_exec) with (n := n) as (s & E & M & _ & _); [vm_compute; reflexivity|vm_compute; reflexivity|].
  exists (calm_events ++ times n), s, (mkCell 8 nd1). split; [exact E|]. split.
  - apply brisk_app; [vm_compute; reflexivity|apply brisk_short; vm_compute; reflexivity|apply times_brisk].
  - split.
    + rewrite app_length, times_length. change (2 ^ 62)%N with (2 * 2 ^ 61)%N. lia.
    + rewrite M, V. split; reflexivity.
Qed.
