(** * ArtFineProofs: every execution of the field-by-field machine (ArtFine.v) has the
    calls and returns of some execution of the machine of ArtConc.v. *)
From Coq Require Import Permutation.
From Verif Require Import Base BitsModel BitsFacts VecModel VecProofs VecProofs2 ArtNode
  ArtNodeProofs ArtNodeProofs2 ArtNodeProofs3 ArtModel ArtSpec ArtTree ArtTree2 ArtRep ArtRep2
  ArtTree3 ArtSeq ArtMono ArtSeq2 ArtSeq3 ArtConc ArtConcHeap ArtConcInv ArtConcStep ArtConcStep2 ArtConcSpec
  ArtConcGlobal ArtConcLin ArtConcLock ArtFine ArtFineRead ArtFineWrite.
Ltac Zify.zify_post_hook ::= Z.div_mod_to_equations.

(** ** The last store, in two memories that agree on the nodes held *)
Definition loc_in (l : loc) (H : list nat) : Prop := match l with LRoot => True | LSlot a _ => In a H end.
Definition fin_loc (fn : fin) : loc := match fn with FNone => LRoot | FStore l _ | FPlace l _ | FUnl _ l => l end.
Definition kept (m m' : mem) : Prop := forall a c, cell_at m a = Some c ->
  exists c', cell_at m' a = Some c' /\ c_ver c' = c_ver c /\ forall t, shape t (c_node c) -> shape t (c_node c').
Lemma kept_refl m : kept m m.
Proof. intros a c H. exists c. auto. Qed.
Lemma shape_children t n i x : shape t n -> shape t (set_children n (set_nth (n_children n) i x)).
Proof. intros H. apply (wr_shape t n (WChild i x) H Logic.I). Qed.

Lemma store_inv m a i q m' : store m (LSlot a i) q = Ok m' -> exists c, cell_at m a = Some c /\ i < length (n_children (c_node c)) /\
  m' = upd_cell m a (mkCell (c_ver c) (set_children (c_node c) (set_nth (n_children (c_node c)) i (Some q)))).
Proof.
  intros H. unfold store, get_node in H. apply bind_inv in H as (n & E & H). apply bind_inv in E as (c & E & E2). apply Ok_inj in E2. subst n.
  apply idx_Ok in E. apply bind_inv in H as (cs & E2 & H). apply upd_inv in E2 as (L & ->). exists c. split; [exact E|]. split; auto.
  rewrite (put_node_ok _ _ _ _ E) in H. now apply Ok_inj in H.
Qed.

Section Both.
Context (H : list nat) (m1 m2 : mem) (HL : mlen m1 = mlen m2) (HS : forall a, In a H -> cell_at m1 a = cell_at m2 a).
Record both (m1' m2' : mem) : Prop := {
  b_root : m_root m1' = m_root m2';
  b_len : mlen m1' = mlen m2';
  b_grow : mlen m1 <= mlen m1';
  b_in : forall a, In a H \/ mlen m1 <= a -> cell_at m1' a = cell_at m2' a;
  b_out : forall a, a < mlen m1 -> ~ In a H -> cell_at m1' a = cell_at m1 a /\ cell_at m2' a = cell_at m2 a;
  b_kept : kept m1 m1'
}.
Lemma over m a : mlen m <= a -> cell_at m a = None.
Proof. intros L. unfold cell_at. now apply nth_error_None. Qed.
Lemma both_same : m_root m1 = m_root m2 -> both m1 m2.
Proof.
  intros R. constructor; auto using kept_refl. intros a [X|X]; auto. rewrite !over by lia. reflexivity.
Qed.
Lemma store_both l q m2' : (forall a, mlen m1 <= a -> cell_at m1 a = cell_at m2 a) -> m_root m1 = m_root m2 -> loc_in l H -> store m2 l q = Ok m2' -> exists m1', store m1 l q = Ok m1' /\ both m1' m2'.
Proof using HL HS.
  intros HO HR LI E. destruct l as [|a i].
  - cbn in E. apply Ok_inj in E. subst m2'. eexists. split; [reflexivity|]. constructor; auto.
    + intros a [X|X]; [now apply HS|]. exact (HO a X).
    + intros a c Hc. exists c. auto.
  - apply store_inv in E as (c & Hc & LT & ->). cbn in LI. pose proof (HS a LI) as E1. rewrite Hc in E1.
    eexists. split; [apply store_slot_ok; eauto|]. pose proof (cell_lt _ _ _ Hc) as L2. assert (L1 : a < mlen m1) by lia. constructor.
    + exact HR.
    + now rewrite !mlen_upd.
    + rewrite mlen_upd. lia.
    + intros x X. rewrite !cell_upd by auto. destruct (Nat.eqb a x); auto. destruct X; auto.
    + intros x LX NX. rewrite !cell_upd by auto. destruct (Nat.eqb_spec a x) as [<-|]; [contradiction|auto].
    + intros x cx Hx. rewrite cell_upd by auto. destruct (Nat.eqb_spec a x) as [<-|]; [|exists cx; auto].
      assert (cx = c) by congruence. subst cx. eexists. split; [reflexivity|]. cbn [c_ver c_node]. split; auto. intros t. apply shape_children.
Qed.
End Both.

Lemma run_both H m1 m2 fn m2' : mlen m1 = mlen m2 -> (forall a, In a H -> cell_at m1 a = cell_at m2 a) -> m_root m1 = m_root m2 ->
  loc_in (fin_loc fn) H -> run_fin fn m2 = Ok m2' -> exists m1', run_fin fn m1 = Ok m1' /\ both H m1 m2 m1' m2'.
Proof.
  intros HL HS HR LI E. assert (HO : forall a, mlen m1 <= a -> cell_at m1 a = cell_at m2 a) by (intros a X; rewrite !over by lia; reflexivity).
  destruct fn as [|l q|l nn|c l]; cbn [run_fin fin_loc] in *.
  - apply Ok_inj in E. subst m2'. exists m1. split; auto. now apply both_same.
  - now apply store_both.
  - unfold place in E |- *. rewrite (alloc_eq m2) in E. rewrite (alloc_eq m1). rewrite <- HL in E.
    destruct (store_both (mlen m1 :: H) (fst (alloc m1 nn)) (fst (alloc m2 nn))) with (l := l) (q := PNode (mlen m1)) (m2' := m2') as (m1' & E1 & B); auto.
    + rewrite !mlen_alloc. lia.
    + intros a X. rewrite !cell_alloc. rewrite HL. destruct (Nat.eqb_spec (mlen m2) a) as [|N]; auto. destruct X as [X|X]; auto. congruence.
    + intros a X. rewrite mlen_alloc in X. rewrite !cell_alloc, HL. destruct (Nat.eqb (mlen m2) a); auto. apply HO. lia.
    + destruct l; cbn in *; auto.
    + exists m1'. split; auto. destruct B as [B1 B2 B3 B4 B5 B6]. rewrite mlen_alloc in *. constructor; auto.
      * lia.
      * intros a [X|X]; apply B4; [left; right; auto|]. destruct (Nat.eq_dec a (mlen m1)) as [->|]; [left; left; auto|right; lia].
      * intros a X Y. destruct (B5 a) as (Z1 & Z2); [lia|intros [Z|Z]; [lia|auto]|]. rewrite !cell_alloc in *.
        rewrite (proj2 (Nat.eqb_neq (mlen m1) a)) in * by lia. rewrite (proj2 (Nat.eqb_neq (mlen m2) a)) in * by lia. auto.
      * intros a c Hc. apply B6. rewrite cell_alloc. rewrite (proj2 (Nat.eqb_neq (mlen m1) a)); auto. apply cell_lt in Hc. lia.
  - now apply store_both.
Qed.

(** ** The simulation relation *)
Definition pc_of (x : ft) : pc := match x with TAt p | TRd p _ _ | TWr p _ _ | TSt _ _ p => p end.
(** The nodes whose fields a goroutine is in the middle of changing. *)
Definition dirty (x : ft) : list nat :=
  match x with TWr p _ _ => held p | TSt (LSlot a _) _ _ => [a] | _ => [] end.
Definition prog (m : mem) (p : pc) : res (list (nat * fw) * fin) :=
  match p with
  | PWrite o f _ mu => wprog m o f mu
  | CWrite o f _ mu i c => wprog_child m f i c
  | _ => Panic
  end.
Definition nochild (m : mem) (p : pc) : Prop :=
  match p with
  | PWrite o f _ mu => exists c, cell_at m (f_cur f) = Some c /\ child_lock (c_node c) mu (op_key o) = Ok None
  | CWrite _ _ _ _ _ _ => True
  | _ => False
  end.

Definition rel (fm cm : mem) (x : ft) : Prop :=
  match x with
  | TAt _ => True
  | TRd p a r => exists v c, reads p = Some (a, v) /\ cell_at cm a = Some c /\ unl v /\ (v <= c_ver c)%N /\ par_ok cm p /\
      outs (n_type (c_node c)) (fun p' => exists nd, shape (n_type (c_node c)) nd /\ to (ptype cm p) p nd p') r /\
      (c_ver c = v -> to (ptype cm p) p (c_node c) (eval (c_node c) r))
  | TWr p ws fn => nochild cm p /\ exists dn, prog cm p = Ok (dn ++ ws, fn) /\
      (forall x, In x ws -> In (fst x) (held p) /\ forall c, cell_at cm (fst x) = Some c -> wok (n_type (c_node c)) (snd x)) /\
      (forall a, In a (held p) -> exists c cf, cell_at cm a = Some c /\ cell_at fm a = Some cf /\ c_node cf = wrs a dn (c_node c))
  | TSt l c p => exists a i cc cf, l = LSlot a i /\ In a (held p) /\ cell_at cm a = Some cc /\ cell_at fm a = Some cf /\
      i < length (n_children (c_node cf)) /\ c_node cc = set_children (c_node cf) (set_nth (n_children (c_node cf)) i (Some (PNode c)))
  end.

(** Steps of the fine machine that are no step of the coarse one. *)
Inductive lower : ft -> ft -> Prop :=
  | lo_rd p a n r : (forall q, r <> RDone q) -> lower (TRd p a (rstep n r)) (TRd p a r)
  | lo_wr p x ws fn : lower (TWr p ws fn) (TWr p (x :: ws) fn)
  | lo_read p a r : lower (TRd p a r) (TAt p)
  | lo_enter p ws fn : lower (TWr p ws fn) (TAt p)
  | lo_st l c p : lower (TAt p) (TSt l c p).
Lemma lower_wf : well_founded lower.
Proof.
  assert (R : forall r p a, Acc lower (TRd p a r)).
  { induction r; intros q a; constructor; intros y Y; inversion Y; subst; cbn [rstep] in *; auto.
    match goal with H : forall q, _ <> RDone q |- _ => destruct (H _ eq_refl) end. }
  assert (W : forall ws p fn, Acc lower (TWr p ws fn)).
  { induction ws; intros p fn; constructor; intros y Y; inversion Y; subst; auto. }
  assert (T : forall p, Acc lower (TAt p)) by (intros p; constructor; intros y Y; inversion Y; subst; auto).
  intros [p|p a r|p ws fn|l c p]; auto. constructor. intros y Y. inversion Y; subst. auto.
Qed.

Record Sim (s : fsys) (cs : sys) : Prop := {
  sm_thr : forall t, s_thr cs t = pc_of (fs_thr s t);
  sm_root : m_root (fs_mem s) = m_root (s_mem cs);
  sm_len : mlen (fs_mem s) = mlen (s_mem cs);
  sm_cell : forall a c, cell_at (fs_mem s) a = Some c -> exists c', cell_at (s_mem cs) a = Some c' /\ c_ver c' = c_ver c /\
     n_type (c_node c') = n_type (c_node c) /\ shape (n_type (c_node c)) (c_node c);
  sm_same : forall a, (forall t, ~ In a (dirty (fs_thr s t))) -> cell_at (fs_mem s) a = cell_at (s_mem cs) a;
  sm_rel : forall t, rel (fs_mem s) (s_mem cs) (fs_thr s t)
}.

Lemma rel_dirty fm cm x a : rel fm cm x -> In a (dirty x) -> In a (held (pc_of x)).
Proof. destruct x as [p|p b r|p ws fn|l c p]; cbn; auto; try contradiction. intros (a0 & i & _ & _ & -> & HI & _) [<-|[]]. exact HI. Qed.

(** ** Steps of other goroutines *)
Definition types (m m' : mem) : Prop := forall a c, cell_at m a = Some c -> exists c', cell_at m' a = Some c' /\ n_type (c_node c') = n_type (c_node c).
Lemma types_refl m : types m m.
Proof. intros a c H. eauto. Qed.
Lemma get_node_none m a : cell_at m a = None -> get_node m a = Panic.
Proof. unfold cell_at, get_node, idx. now intros ->. Qed.

Section Frame.
Context (fm cm fm' cm' : mem) (r : nat) (A : aheap) (r' : nat) (A' : aheap) (HH : list nat).
Context (EV : env (HH) cm r A cm' r' A') (TY : types cm cm').
Context (FM : forall a, In a (HH) -> option_map c_node (cell_at fm' a) = option_map c_node (cell_at fm a)).

Lemma held_node a c : In a (HH) -> cell_at cm a = Some c -> exists c', cell_at cm' a = Some c' /\ c_node c' = c_node c.
Proof.
  intros HI Hc. destruct (e_cell _ _ _ _ _ _ _ EV a c Hc) as (c' & Hc' & _ & X & Y). exists c'. split; auto. apply X; auto.
Qed.
Lemma held_get a : In a (HH) -> (exists c, cell_at cm a = Some c) -> get_node cm' a = get_node cm a.
Proof.
  intros HI (c & Hc). destruct (held_node a c HI Hc) as (c' & Hc' & E). now rewrite (get_node_ok _ _ _ Hc), (get_node_ok _ _ _ Hc'), E.
Qed.
Lemma fine_node a cf : In a (HH) -> cell_at fm a = Some cf -> exists cf', cell_at fm' a = Some cf' /\ c_node cf' = c_node cf.
Proof.
  intros HI Hc. specialize (FM a HI). rewrite Hc in FM. destruct (cell_at fm' a) as [cf'|]; inversion FM. eauto.
Qed.
Lemma par_st p : par_ok cm p -> par_ok cm' p /\ ptype cm' p = ptype cm p.
Proof.
  destruct p; cbn [par_ok ptype]; auto; intros (c & Hc); destruct (TY _ _ Hc) as (c' & Hc' & T);
    (split; [now exists c'|]); now rewrite (get_node_ok _ _ _ Hc), (get_node_ok _ _ _ Hc').
Qed.
Lemma rel_st x : held (pc_of x) = HH -> rel fm cm x -> rel fm' cm' x.
Proof.
  intros EH. destruct x as [p|p a rr|p ws fn|l c p]; cbn [rel pc_of] in *; auto.
  - intros (v & c & R & Hc & U & LE & PO & O & EVL). destruct (TY _ _ Hc) as (c' & Hc' & T). destruct (par_st p PO) as (PO' & PT).
    exists v, c'. rewrite T, PT. split; auto. split; auto. split; auto.
    destruct (e_cell _ _ _ _ _ _ _ EV a c Hc) as (c2 & Hc2 & L2 & _). assert (c2 = c') by congruence. subst c2.
    split; [lia|]. split; auto. split; auto. intros V.
    destruct (cell_st _ _ _ _ _ _ _ EV a v c c' U LE Hc Hc' V) as (V2 & -> & _). auto.
  - intros (NC & dn & PR & W & B). split.
    { destruct p; cbn [nochild] in *; auto. destruct NC as (c & Hc & CL). cbn [pc_of] in *.
      destruct (held_node _ _ ltac:(rewrite <- EH; cbn [held]; destruct (two mu); left; reflexivity) Hc) as (c' & Hc' & E). exists c'. split; auto. now rewrite E. }
    exists dn. split; [|split].
    + rewrite <- PR. destruct p; cbn [prog pc_of] in *; auto.
      * unfold wprog. rewrite held_get; auto; [rewrite <- EH; cbn [held]; destruct (two mu); left; reflexivity|].
        destruct (B (f_cur f)) as (c & _ & Hc & _); [cbn [held]; destruct (two mu); left; reflexivity|eauto].
      * unfold wprog_child. rewrite !held_get; auto; [rewrite <- EH; left; reflexivity| |rewrite <- EH; right; left; reflexivity|].
        -- destruct (B c) as (cc & _ & Hc & _); [left; reflexivity|eauto].
        -- destruct (B (f_cur f)) as (cc & _ & Hc & _); [right; left; reflexivity|eauto].
    + intros y Y. destruct (W y Y) as (W1 & W2). split; auto. intros c' Hc'.
      destruct (B _ W1) as (c & _ & Hc & _). destruct (TY _ _ Hc) as (c2 & Hc2 & T). assert (c2 = c') by congruence. subst c2. rewrite T. auto.
    + intros a HI. destruct (B a HI) as (c & cf & Hc & Hf & E). destruct (held_node a c ltac:(rewrite <- EH; exact HI) Hc) as (c' & Hc' & E1).
      destruct (fine_node a cf ltac:(rewrite <- EH; exact HI) Hf) as (cf' & Hf' & E2). exists c', cf'. split; auto. split; auto. congruence.
  - intros (a & i & cc & cf & -> & HI & Hc & Hf & LT & E). destruct (held_node a cc ltac:(rewrite <- EH; exact HI) Hc) as (c' & Hc' & E1).
    destruct (fine_node a cf ltac:(rewrite <- EH; exact HI) Hf) as (cf' & Hf' & E2). exists a, i, c', cf'. rewrite E1, E2. auto 10.
Qed.
End Frame.

(** ** Steps that touch no plain field *)
Definition plain (p : pc) : bool := match p with PWrite _ _ _ _ | CWrite _ _ _ _ _ _ => false | _ => match reads p with None => true | _ => false end end.
Lemma tstep_ver first nd m1 m2 p : plain p = true -> m_root m1 = m_root m2 -> (forall a, get_ver m1 a = get_ver m2 a) ->
  match tstep first nd m1 p, tstep first nd m2 p with
  | SBlock, SBlock => True
  | SGo m1' p1, SGo m2' p2 => p1 = p2 /\ ((m1' = m1 /\ m2' = m2) \/ exists a w, m1' = set_ver m1 a w /\ m2' = set_ver m2 a w)
  | _, _ => False
  end.
Proof.
  intros PL HR HV. destruct p; try discriminate PL; cbn [tstep]; unfold rlock, vcheck, vcas, vunlock, crash, go; rewrite ?HV, ?HR;
    repeat match goal with
    | |- True => exact Logic.I
    | |- ?a = ?a /\ _ => split; [reflexivity|first [left; split; reflexivity|right; eexists _, _; split; reflexivity]]
    | |- context [get_ver m1 _] => rewrite !HV
    | |- context [lift _ _ ?x] => destruct x; cbn [lift]; unfold crash, go
    | |- context [match ?x with _ => _ end] => match x with context [match _ with _ => _ end] => fail 1 | context [lift _ _ _] => fail 1 | _ => idtac end; destruct x
    end.
Qed.

Lemma coarse_step hc cs t first nd m' p' : exec hc cs -> reads_ok (s_mem cs) (s_thr cs t) nd ->
  tstep first nd (s_mem cs) (s_thr cs t) = SGo m' p' ->
  types (s_mem cs) m' /\ exists r A r' A', crep m' r' A' /\ forall u, u <> t -> env (held (s_thr cs u)) (s_mem cs) r A m' r' A'.
Proof.
  intros E RD ST. destruct (GI_exec hc cs E) as (r & A & S & G). pose proof (g_rep _ _ _ _ _ G) as K. pose proof (g_lk _ _ _ _ _ G) as LL.
  destruct (tstep_ok (s_mem cs) r A K (LK_LI _ _ _ LL) (S t) (s_thr cs t) (g_thr _ _ _ _ _ G t)
       (fun o x => g_seen _ _ _ _ _ G t o x) first nd m' p' RD ST) as (r' & A' & O & K' & _). split.
  - intros a c Hc. inversion O as [CM H1 H2|n c0 CM Hc0 U H1 H2 H3|n obs c0 CM Hc0 H1 H2|o m2 r2 A2 H1 H2 H3 H4 FR H5 H6 H7 H8 H9]; subst.
    + eauto.
    + rewrite (cell_set_ver _ _ _ _ _ Hc0). destruct (Nat.eqb_spec n a) as [<-|]; [|eauto]. eexists. split; [reflexivity|]. cbn. congruence.
    + rewrite (cell_set_ver _ _ _ _ _ Hc0). destruct (Nat.eqb_spec n a) as [<-|]; [|eauto]. eexists. split; [reflexivity|]. cbn. congruence.
    + destruct (fr_cell _ _ _ _ _ _ _ _ FR a c Hc) as (c' & Hc' & _ & T). eauto.
  - exists r, A, r', A'. split; auto. intros u N. eapply other_env; eauto.
Qed.

(** What a goroutine inside its critical section is going to do. *)
Record plan (m : mem) (p : pc) (ws : list (nat * fw)) (fn : fin) (m1 : mem) (p1 : pc) : Prop := {
  pl_prog : prog m p = Ok (ws, fn);
  pl_run : run_fin fn (awrs m ws) = Ok m1;
  pl_loc : loc_in (fin_loc fn) (held p);
  pl_ws : forall x, In x ws -> In (fst x) (held p) /\ forall c, cell_at m (fst x) = Some c -> wok (n_type (c_node c)) (snd x);
  pl_step : forall first nd, tstep first nd m p = SGo m1 p1;
  pl_new : forall a c, mlen m <= a -> cell_at m1 a = Some c -> shape (n_type (c_node c)) (c_node c);
  pl_has : forall a, In a (held p) -> exists c, cell_at m a = Some c;
  pl_kind : match p with
    | CWrite o f _ mu _ c => fn = FUnl c (f_loc f) /\ (exists i, f_loc f = LSlot (f_par f) i) /\ two mu = true /\ p1 = PUnlock o ((c, false) :: unlocks f mu) true
    | _ => (forall c l, fn <> FUnl c l) /\ p1 = after p
    end
}.

Lemma post_new H D m r A m' o a c : post H D m r A m' o -> mlen m <= a -> cell_at m' a = Some c -> shape (n_type (c_node c)) (c_node c).
Proof.
  intros (r' & A' & K' & _ & FR) LA Hc. destruct (fr_new _ _ _ _ _ _ _ _ FR a c LA Hc) as (_ & NA).
  destruct (A' a) as [x|] eqn:EA; [|contradiction]. eapply rep_shape. eapply k_live_cell; eauto.
Qed.

Lemma plan_ok hc cs t : exec hc cs -> nochild (s_mem cs) (s_thr cs t) -> exists ws fn m1 p1, plan (s_mem cs) (s_thr cs t) ws fn m1 p1.
Proof.
  intros E NC. destruct (GI_exec hc cs E) as (r & A & S & G). pose proof (g_rep _ _ _ _ _ G) as K. pose proof (g_lk _ _ _ _ _ G) as LL.
  pose proof (g_thr _ _ _ _ _ G t) as T. pose proof (k_inv _ _ _ K) as I.
  assert (HAS : forall a, In a (held (s_thr cs t)) -> exists c, cell_at (s_mem cs) a = Some c).
  { intros a X. destruct (l_held _ _ _ LL _ _ X) as (c & Hc & _). eauto. }
  pose proof (l_nodup _ _ _ LL t) as ND.
  destruct (s_thr cs t) eqn:ET; cbn [nochild] in NC; try contradiction.
  - destruct NC as (c & Hc & CL). cbn [TI] in T. destruct T as (F & OW & OP). destruct OW as (U & c' & Hc' & V & MF). assert (c' = c) by congruence. subst c'.
    pose proof MF as (a & Ha & _). pose proof (root_now _ _ _ (S t) o f F a Ha) as RF. pose proof (k_live_cell _ _ _ _ _ _ K Ha Hc) as R.
    destruct (commit_ok (s_mem cs) r A K o f mu c (fi_valid _ _ _ _ _ _ F) Hc MF RF) as (m2 & E2 & PO); auto.
    { intros TW. apply (link_own _ _ (S t) o). auto. }
    destruct (wprog_commit (s_mem cs) o f c Hc (rep_shape _ _ _ R) mu m2 E2) as (ws & fn & W1 & W2 & W3 & W4 & W5).
    exists ws, fn, m2, (after (PWrite o f v mu)). constructor.
    + exact W1.
    + exact W2.
    + cbn [held]. destruct fn as [|l q|l nn|cc l]; cbn [fin_loc fin_at] in *; [exact Logic.I| | |contradiction].
      1-2: destruct W4 as [(TW & ->)|(s & ->)]; [|cbn; destruct (two mu); left; reflexivity]; rewrite TW;
        (destruct (Nat.eq_dec (f_par f) 0) as [Z|Z];
         [destruct (fi_root _ _ _ _ _ _ F Z) as (-> & _); exact Logic.I|];
         destruct (link_own _ _ (S t) o f (OP TW) Z) as (pcc & _ & ap & b & slot & pos & _ & _ & EL & _); rewrite EL; cbn; right; left; reflexivity).
    + intros x X. rewrite (W3 x X). split; [cbn [held]; destruct (two mu); left; reflexivity|]. intros c0 Hc0. assert (c0 = c) by congruence. subst c0.
      assert (FF : Forall (fun x : nat * fw => wok (n_type (c_node c)) (snd x)) ws).
      { apply W5. intros c2 Hc2 RT. destruct PO as (r' & A' & K' & _ & FR). destruct (fr_cell _ _ _ _ _ _ _ _ FR _ _ Hc) as (c3 & Hc3 & _ & TY).
        assert (c3 = c2) by congruence. subst c3. rewrite <- TY. destruct (A' (f_cur f)) as [a'|] eqn:Ha'.
        - eapply rep_shape. eapply k_live_cell; eauto.
        - exfalso. apply (fr_gone _ _ _ _ _ _ _ _ FR _ _ Ha) in Ha'. unfold gone_set in Ha'. now rewrite RT in Ha'. }
      rewrite Forall_forall in FF. exact (FF x X).
    + intros first nd. cbn [tstep]. rewrite (get_node_ok _ _ _ Hc). cbn [bind]. rewrite CL. cbn [lift]. rewrite E2. reflexivity.
    + intros a0 c0. eapply post_new; eauto.
    + exact HAS.
    + split; [|reflexivity]. intros c0 l ->. exact W4.
  - rename c into ch. cbn [TI] in T. destruct T as (F & TW & RT & (c2 & Hc2) & OW & OP). destruct OW as (U & c & Hc & V & MF & CL). pose proof MF as (a & Ha & _).
    pose proof (root_now _ _ _ (S t) o f F a Ha) as RF. pose proof (k_live_cell _ _ _ _ _ _ K Ha Hc) as R.
    destruct (commit_child_ok (s_mem cs) r A K o f mu c (fi_valid _ _ _ _ _ _ F) Hc MF RF) with (i := i) (ch := ch) as (m2 & E2 & PO); auto.
    { intros _. apply (link_own _ _ (S t) o). auto. }
    destruct (child_lock_ok r A o f mu (c_node c) a _ I Ha ltac:(rewrite <- Ha; exact MF) R (root_par r f RF)) as (x & EX & CLX).
    assert (x = Some (i, ch)) by (apply Ok_inj; congruence). subst x. destruct (CLX _ _ eq_refl) as (_ & _ & b & Eb).
    destruct (ai_node r A I _ _ _ _ Ha Eb) as (ay & Hay & _). pose proof (k_live_cell _ _ _ _ _ _ K Hay Hc2) as R2.
    assert (Z : f_par f <> 0).
    { destruct o as [k v0|k|k]; [destruct mu; try discriminate; destruct MF as (? & _ & []); auto; fail|destruct MF as (? & _ & [])|].
      destruct (del_cases r A k f mu (c_node c) a _ I Ha TW ltac:(rewrite <- Ha; exact MF) R (root_par r f RF)) as (_ & _ & [(Z & _)|[(Z & _)|(d & b0 & nn & -> & E1 & _)]]); auto.
      cbn [op_key] in CL. unfold child_lock in CL. rewrite E1 in CL. discriminate. }
    assert (NE : ch <> f_cur f). { cbn [held] in ND. inversion ND; subst. intros X. apply H1. left. auto. }
    destruct (wprog_child_commit (s_mem cs) f c Hc (rep_shape _ _ _ R) i ch c2 m2 Hc2 NE (rep_shape _ _ _ R2) E2) as (ws & W1 & W2 & W3 & W4).
    destruct (link_own _ _ (S t) o f OP Z) as (pcc & _ & ap & b0 & slot & pos & _ & _ & EL & _).
    exists ws, (FUnl ch (f_loc f)), m2, (PUnlock o ((ch, false) :: unlocks f mu) true). constructor.
    + exact W1.
    + exact W2.
    + cbn [fin_loc]. rewrite EL. cbn. right; right; left; reflexivity.
    + intros x X. split; [cbn [held]; destruct (W3 x X) as [<-|<-]; [right; left; reflexivity|left; reflexivity]|]. intros c0 _.
      specialize (W4 (n_type (c_node c0))). rewrite Forall_forall in W4. exact (W4 x X).
    + intros first nd. cbn [tstep]. rewrite E2. reflexivity.
    + intros a0 c0. eapply post_new; eauto.
    + exact HAS.
    + split; [reflexivity|]. split; [now exists slot|]. auto.
Qed.

(** ** The steps *)
Lemma fupd_eq th t x : fupd th t x t = x.
Proof. unfold fupd. now rewrite Nat.eqb_refl. Qed.
Lemma fupd_ne th t x u : u <> t -> fupd th t x u = th u.
Proof. intros H. unfold fupd. now rewrite (proj2 (Nat.eqb_neq u t) H). Qed.

Definition cells_ok (fm cm : mem) : Prop := forall a c, cell_at fm a = Some c -> exists c', cell_at cm a = Some c' /\ c_ver c' = c_ver c /\
     n_type (c_node c') = n_type (c_node c) /\ shape (n_type (c_node c)) (c_node c).

Lemma sim_upd s cs fm' cs' t x' : Sim s cs ->
  s_thr cs' t = pc_of x' -> (forall u, u <> t -> s_thr cs' u = s_thr cs u) ->
  m_root fm' = m_root (s_mem cs') -> mlen fm' = mlen (s_mem cs') -> cells_ok fm' (s_mem cs') ->
  (forall a, ~ In a (dirty x') -> (forall u, u <> t -> ~ In a (dirty (fs_thr s u))) -> cell_at fm' a = cell_at (s_mem cs') a) ->
  rel fm' (s_mem cs') x' -> (forall u, u <> t -> rel fm' (s_mem cs') (fs_thr s u)) ->
  Sim (mkFS fm' (fupd (fs_thr s) t x')) cs'.
Proof.
  intros SM T1 T2 R1 R2 CO SA R3 R4. constructor; cbn [fs_mem fs_thr]; auto.
  - intros u. destruct (Nat.eq_dec u t) as [->|N]; [now rewrite fupd_eq|]. rewrite fupd_ne, T2 by auto. apply (sm_thr _ _ SM).
  - intros a X. apply SA.
    + specialize (X t). now rewrite fupd_eq in X.
    + intros u N. specialize (X u). now rewrite fupd_ne in X by auto.
  - intros u. destruct (Nat.eq_dec u t) as [->|N]; [now rewrite fupd_eq|]. rewrite fupd_ne by auto. auto.
Qed.

Section SimStep.
Context (hc : list ev) (s : fsys) (cs : sys) (SM : Sim s cs) (E : exec hc cs).
Let fm := fs_mem s.
Let cm := s_mem cs.

Lemma dirty_held u a : In a (dirty (fs_thr s u)) -> In a (held (s_thr cs u)).
Proof. intros X. rewrite (sm_thr _ _ SM). eapply rel_dirty; eauto. apply (sm_rel _ _ SM). Qed.
Lemma held_disj u t a : In a (held (s_thr cs u)) -> In a (held (s_thr cs t)) -> u = t.
Proof. destruct (GI_exec hc cs E) as (r & A & S & G). apply (l_disj _ _ _ (g_lk _ _ _ _ _ G)). Qed.
Lemma held_ver t a : In a (held (s_thr cs t)) -> exists c, cell_at cm a = Some c /\ (c_ver c mod 4 = 2)%N.
Proof. destruct (GI_exec hc cs E) as (r & A & S & G). apply (l_held _ _ _ (g_lk _ _ _ _ _ G)). Qed.
Lemma clean_own t a : dirty (fs_thr s t) = [] -> In a (held (s_thr cs t)) -> cell_at fm a = cell_at cm a.
Proof.
  intros D HI. apply (sm_same _ _ SM). intros u X. assert (u = t) by (eapply held_disj; eauto using dirty_held). subst u. rewrite D in X. contradiction.
Qed.
Lemma clean_unl a c : cell_at cm a = Some c -> unl (c_ver c) -> cell_at fm a = Some c.
Proof.
  intros Hc U. rewrite <- Hc. apply (sm_same _ _ SM). intros u X. apply dirty_held, held_ver in X as (c' & Hc' & V).
  assert (c' = c) by congruence. subst. unfold unl in U. lia.
Qed.
Lemma fine_cell a c : cell_at cm a = Some c -> exists cf, cell_at fm a = Some cf /\ c_ver cf = c_ver c /\ n_type (c_node cf) = n_type (c_node c) /\
  shape (n_type (c_node c)) (c_node cf).
Proof.
  intros Hc. destruct (cell_at fm a) as [cf|] eqn:Hf.
  - destruct (sm_cell _ _ SM a cf Hf) as (c' & Hc' & V & T & SH). assert (c' = c) by (unfold cm in *; congruence). subst c'. exists cf. rewrite T. auto.
  - exfalso. apply cell_lt in Hc. unfold cm in Hc. rewrite <- (sm_len _ _ SM) in Hc. unfold cell_at in Hf. apply nth_error_None in Hf. unfold fm, mlen in *. lia.
Qed.
Lemma cell_none a : cell_at cm a = None -> cell_at fm a = None.
Proof. intros H. unfold cell_at in *. apply nth_error_None in H. apply nth_error_None. pose proof (sm_len _ _ SM). unfold mlen, fm, cm in *. lia. Qed.
Lemma get_ver_eq a : get_ver fm a = get_ver cm a.
Proof.
  destruct (cell_at cm a) as [c|] eqn:Hc.
  - destruct (fine_cell a c Hc) as (cf & Hf & V & _). now rewrite (get_ver_ok _ _ _ Hc), (get_ver_ok _ _ _ Hf), V.
  - pose proof (cell_none a Hc) as Hf. unfold cell_at in *. unfold get_ver, idx. now rewrite Hc, Hf.
Qed.
Lemma ptype_eq p : ptype fm p = ptype cm p.
Proof.
  assert (X : forall a, match get_node fm a with Ok n => n_type n | _ => Dummy end = match get_node cm a with Ok n => n_type n | _ => Dummy end).
  { intros a. destruct (cell_at cm a) as [c|] eqn:Hc.
    - destruct (fine_cell a c Hc) as (cf & Hf & _ & T & _). now rewrite (get_node_ok _ _ _ Hc), (get_node_ok _ _ _ Hf).
    - now rewrite (get_node_none _ _ Hc), (get_node_none _ _ (cell_none a Hc)). }
  destruct p; cbn [ptype]; auto.
Qed.

(** The coarse machine stays where it is. *)
Lemma stay t x' : pc_of x' = s_thr cs t -> (forall a, In a (dirty (fs_thr s t)) -> In a (dirty x')) -> rel fm cm x' -> Sim (mkFS fm (fupd (fs_thr s) t x')) cs.
Proof.
  intros P D R. eapply sim_upd; eauto.
  - apply (sm_root _ _ SM).
  - apply (sm_len _ _ SM).
  - exact (sm_cell _ _ SM).
  - intros a X Y. apply (sm_same _ _ SM). intros u Z. destruct (Nat.eq_dec u t) as [->|N]; [auto|]. eapply Y; eauto.
  - intros u _. apply (sm_rel _ _ SM).
Qed.

(** Both machines leave the memory alone. *)
Lemma pure_move t p' : dirty (fs_thr s t) = [] -> Sim (mkFS fm (fupd (fs_thr s) t (TAt p'))) (mkSys cm (upd_thr (s_thr cs) t p')).
Proof.
  intros D. eapply sim_upd; eauto; cbn [s_thr s_mem].
  - apply upd_eq.
  - intros u N. now rewrite upd_ne.
  - apply (sm_root _ _ SM).
  - apply (sm_len _ _ SM).
  - exact (sm_cell _ _ SM).
  - intros a X Y. apply (sm_same _ _ SM). intros u Z. destruct (Nat.eq_dec u t) as [->|N]; [rewrite D in Z; contradiction|]. eapply Y; eauto.
  - exact Logic.I.
  - intros u _. apply (sm_rel _ _ SM).
Qed.

Lemma set_ver_none m a w : cell_at m a = None -> set_ver m a w = m.
Proof. unfold set_ver, cell_at. now intros ->. Qed.

(** Both machines set a version word. *)
Lemma ver_move t p' a w r A r' A' : dirty (fs_thr s t) = [] ->
  (forall u, u <> t -> env (held (s_thr cs u)) cm r A (set_ver cm a w) r' A') ->
  Sim (mkFS (set_ver fm a w) (fupd (fs_thr s) t (TAt p'))) (mkSys (set_ver cm a w) (upd_thr (s_thr cs) t p')).
Proof.
  intros D EV. destruct (cell_at cm a) as [c|] eqn:Hc.
  2: { rewrite (set_ver_none _ _ _ Hc), (set_ver_none _ _ _ (cell_none a Hc)). now apply pure_move. }
  destruct (fine_cell a c Hc) as (cf & Hf & V & T & SH).
  eapply sim_upd; eauto; cbn [s_thr s_mem].
  - apply upd_eq.
  - intros u N. now rewrite upd_ne.
  - rewrite (set_ver_eq _ _ _ _ Hc), (set_ver_eq _ _ _ _ Hf). apply (sm_root _ _ SM).
  - rewrite (mlen_set_ver _ _ _ _ Hc), (mlen_set_ver _ _ _ _ Hf). apply (sm_len _ _ SM).
  - intros x cx. rewrite (cell_set_ver _ _ _ _ _ Hc), (cell_set_ver _ _ _ _ _ Hf). destruct (Nat.eqb_spec a x) as [<-|N]; [|apply (sm_cell _ _ SM)].
    intros X. inversion X; subst. eexists. split; [reflexivity|]. cbn [c_ver c_node]. rewrite T. auto.
  - intros x X Y. rewrite (cell_set_ver _ _ _ _ _ Hc), (cell_set_ver _ _ _ _ _ Hf).
    assert (EQ : cell_at fm x = cell_at cm x).
    { apply (sm_same _ _ SM). intros u Z. destruct (Nat.eq_dec u t) as [->|N]; [rewrite D in Z; contradiction|]. eapply Y; eauto. }
    destruct (Nat.eqb_spec a x) as [<-|N]; auto. congruence.
  - exact Logic.I.
  - intros u N. eapply rel_st; [exact (EV u N)| | |now rewrite (sm_thr _ _ SM)|apply (sm_rel _ _ SM)].
    + intros x cx Hx. fold cm in Hx. rewrite (cell_set_ver _ _ _ _ _ Hc). destruct (Nat.eqb_spec a x) as [<-|]; [|eauto]. eexists. split; [reflexivity|]. cbn. congruence.
    + intros x _. rewrite (cell_set_ver _ _ _ _ _ Hf). destruct (Nat.eqb_spec a x) as [<-|]; auto. fold fm. now rewrite Hf.
Qed.

Lemma reads_past m r A S p a v : TI m r A S p -> reads p = Some (a, v) -> Past m a v /\ par_ok m p.
Proof.
  intros T R. destruct p; cbn [reads] in R; try discriminate; inversion R; subst; cbn [TI par_ok] in *;
    repeat match goal with H : _ /\ _ |- _ => destruct H end;
    (split; [first [match goal with H : J _ _ _ _ _ _ |- _ => exact (proj1 H) end|match goal with H : At _ _ _ _ _ |- _ => exact (proj1 H) end]|
     first [exact Logic.I|match goal with H : FI _ _ _ _ _ _ |- _ => exact (par_cell _ _ _ _ _ _ H) end]]).
Qed.

(** [goes t m' x'] : when the fine machine goes to [m'] and [x'], the coarse one can follow. *)
Definition goes (t : nat) (m' : mem) (x' : ft) : Prop :=
  exists l cs', steps cs l cs' /\ Forall (fun e => e = ETau t) l /\ Sim (mkFS m' (fupd (fs_thr s) t x')) cs' /\
    (l = [] -> lower x' (fs_thr s t)) /\
    (length l <= 1 \/ exists c cf, In c (held (s_thr cs t)) /\ cell_at fm c = Some cf /\ m' = set_ver fm c (c_ver cf + 2)).
Lemma goes0 t m' x' : lower x' (fs_thr s t) -> Sim (mkFS m' (fupd (fs_thr s) t x')) cs -> goes t m' x'.
Proof. intros L H. exists [], cs. split; [constructor|]. auto 10. Qed.
Lemma goes1 t m' x' cs' : step cs (ETau t) cs' -> Sim (mkFS m' (fupd (fs_thr s) t x')) cs' -> goes t m' x'.
Proof. intros H1 H2. exists [ETau t], cs'. split; [econstructor; eauto; constructor|]. split; auto. split; auto. split; [discriminate|cbn; auto]. Qed.

Lemma go_reads t p a v first m' x' : fs_thr s t = TAt p -> reads p = Some (a, v) -> fgo first fm (TAt p) = Some (m', x') -> goes t m' x'.
Proof.
  intros ET R H. cbn [fgo] in H. rewrite R in H. destruct (GI_exec hc cs E) as (r & A & S & G).
  pose proof (g_thr _ _ _ _ _ G t) as T. pose proof (sm_thr _ _ SM t) as EP. rewrite ET in EP. cbn [pc_of] in EP. rewrite EP in T.
  destruct (reads_past _ _ _ _ _ _ _ T R) as ((U & c & Hc & LE) & PO). destruct (fine_cell a c Hc) as (cf & Hf & V & TY & SH).
  rewrite (get_node_ok _ _ _ Hf) in H. cbn [tri] in H. injection H as <- <-. apply goes0; [rewrite ET; constructor|]. apply stay; cbn [pc_of dirty rel]; auto.
  { rewrite ET. cbn. auto. }
  rewrite TY, ptype_eq. exists v, c. split; auto. split; auto. split; auto. split; auto. split; auto. split.
  - apply rprog_outs. congruence.
  - intros VE. apply rprog_eval; [congruence|]. pose proof (clean_unl a c Hc ltac:(now rewrite VE)) as X. assert (cf = c) by congruence. subst cf. exact SH.
Qed.

Lemma go_read t p a rr first m' x' : fs_thr s t = TRd p a rr -> fgo first fm (TRd p a rr) = Some (m', x') -> goes t m' x'.
Proof.
  intros ET H. pose proof (sm_rel _ _ SM t) as RL. rewrite ET in RL. cbn [rel] in RL. destruct RL as (v & c & R & Hc & U & LE & PO & O & EVL).
  fold cm in Hc, PO, O, EVL. pose proof (sm_thr _ _ SM t) as EP. rewrite ET in EP. cbn [pc_of] in EP. destruct (fine_cell a c Hc) as (cf & Hf & V & TY & SH).
  assert (D : (exists p', rr = RDone p') \/ (fgo first fm (TRd p a rr) = tri p fm (get_node fm a) (fun n => Some (fm, TRd p a (rstep n rr))) /\ forall q, rr <> RDone q)).
  { destruct rr; eauto; right; split; try reflexivity; discriminate. }
  destruct D as [(p' & ->)|(D & ND)].
  - cbn [fgo] in H. injection H as <- <-.
    assert (X : exists nd, sees cm a v nd /\ to (ptype cm p) p nd p').
    { destruct (N.eq_dec (c_ver c) v) as [VE|VE].
      - exists (c_node c). split; [|exact (EVL VE)]. exists c. split; auto. split; auto. congruence.
      - destruct (outs_fin _ _ _ _ SH O) as (nd & S1 & S2). exists nd. split; auto. exists c. split; auto. split; auto. congruence. }
    destruct X as (nd & SE & TT). eapply goes1; [|apply pure_move; rewrite ET; reflexivity].
    apply (step_tau cs t true nd cm p'); rewrite EP; [unfold reads_ok; rewrite R; exact SE|]. apply TT; auto.
  - rewrite D, (get_node_ok _ _ _ Hf) in H. cbn [tri] in H. injection H as <- <-. apply goes0; [rewrite ET; now constructor|]. apply stay; cbn [pc_of dirty rel]; auto.
    { rewrite ET. cbn. auto. }
    exists v, c. split; auto. split; auto. split; auto. split; auto. split; auto. split; [apply outs_step; auto|].
    intros VE. pose proof (clean_unl a c Hc ltac:(now rewrite VE)) as X. assert (cf = c) by congruence. subst cf. rewrite eval_rstep. auto.
Qed.

Lemma go_plain t p first m' x' : fs_thr s t = TAt p -> plain p = true -> fgo first fm (TAt p) = Some (m', x') -> goes t m' x'.
Proof.
  intros ET PL H. assert (NR : reads p = None) by (destruct p; cbn in *; try discriminate; reflexivity).
  assert (H' : match tstep first newNode4 fm p with SGo m' p' => Some (m', TAt p') | SBlock => None end = Some (m', x')).
  { rewrite <- H. cbn [fgo]. rewrite NR. destruct p; try discriminate PL; reflexivity. }
  pose proof (sm_thr _ _ SM t) as EP. rewrite ET in EP. cbn [pc_of] in EP.
  pose proof (tstep_ver first newNode4 fm cm p PL (sm_root _ _ SM) get_ver_eq) as X.
  destruct (tstep first newNode4 fm p) as [|m1 p1] eqn:E1; [discriminate|]. injection H' as <- <-.
  destruct (tstep first newNode4 cm p) as [|m2 p2] eqn:E2; [contradiction|]. destruct X as (<- & X).
  assert (RD : reads_ok (s_mem cs) (s_thr cs t) newNode4) by (unfold reads_ok; now rewrite EP, NR).
  assert (ST : tstep first newNode4 (s_mem cs) (s_thr cs t) = SGo m2 p1) by (now rewrite EP).
  destruct (coarse_step _ _ _ _ _ _ _ E RD ST) as (_ & r & A & r' & A' & _ & EV).
  eapply goes1; [eapply step_tau; eauto|]. destruct X as [(-> & ->)|(a & w & -> & ->)].
  - apply pure_move. now rewrite ET.
  - eapply ver_move; eauto. now rewrite ET.
Qed.

(** Entering a critical section *)
Lemma go_enter t p first m' x' : fs_thr s t = TAt p -> nochild cm p ->
  (forall ws fn, prog cm p = Ok (ws, fn) -> prog fm p = Ok (ws, fn) -> fgo first fm (TAt p) = Some (fm, TWr p ws fn)) ->
  fgo first fm (TAt p) = Some (m', x') -> goes t m' x'.
Proof.
  intros ET NC HP H. pose proof (sm_thr _ _ SM t) as EP. rewrite ET in EP. cbn [pc_of] in EP.
  destruct (plan_ok hc cs t E ltac:(rewrite EP; exact NC)) as (ws & fn & m1 & p1 & PL). rewrite EP in PL.
  assert (CL : forall a, In a (held p) -> cell_at fm a = cell_at cm a). { intros a X. apply (clean_own t); [now rewrite ET|now rewrite EP]. }
  assert (CG : forall a, In a (held p) -> get_node fm a = get_node cm a). { intros a X. pose proof (CL a X) as Y. unfold get_node, idx. unfold cell_at in Y. now rewrite Y. }
  pose proof (pl_prog _ _ _ _ _ _ PL) as PR. rewrite (HP ws fn) in H; auto.
  2: { rewrite <- PR. destruct p; cbn [nochild] in NC; try contradiction; cbn [prog].
       - unfold wprog. rewrite CG; auto. cbn [held]. destruct (two mu); left; reflexivity.
       - unfold wprog_child. rewrite !CG; auto; [left|right; left]; reflexivity. }
  injection H as <- <-. apply goes0; [rewrite ET; constructor|]. apply stay; cbn [pc_of dirty rel]; auto.
  { rewrite ET. cbn. contradiction. }
  split; auto. exists []. split; [exact PR|]. split; [exact (pl_ws _ _ _ _ _ _ PL)|].
  intros a X. destruct (pl_has _ _ _ _ _ _ PL a X) as (c & Hc). exists c, c. rewrite (CL a X). auto.
Qed.

Lemma go_PWrite t o f v mu first m' x' : fs_thr s t = TAt (PWrite o f v mu) -> fgo first fm (TAt (PWrite o f v mu)) = Some (m', x') -> goes t m' x'.
Proof.
  intros ET H. pose proof (sm_thr _ _ SM t) as EP. rewrite ET in EP. cbn [pc_of] in EP.
  destruct (GI_exec hc cs E) as (r & A & S & G). pose proof (g_rep _ _ _ _ _ G) as K. pose proof (k_inv _ _ _ K) as I.
  pose proof (g_thr _ _ _ _ _ G t) as T. rewrite EP in T. cbn [TI] in T. destruct T as (F & OW & OP). destruct OW as (U & c & Hc & V & MF). pose proof MF as (a & Ha & _).
  pose proof (root_now _ _ _ (S t) o f F a Ha) as RF. pose proof (k_live_cell _ _ _ _ _ _ K Ha Hc) as R.
  destruct (child_lock_ok r A o f mu (c_node c) a _ I Ha ltac:(rewrite <- Ha; exact MF) R (root_par r f RF)) as (x & EX & _).
  assert (Hf : cell_at fm (f_cur f) = Some c).
  { rewrite <- Hc. apply (clean_own t); [now rewrite ET|]. rewrite EP. cbn [held]. destruct (two mu); left; reflexivity. }
  assert (FG : fgo first fm (TAt (PWrite o f v mu)) = match x with
    | Some (i, c) => Some (fm, TAt (CWait o f v mu i c))
    | None => tri (PWrite o f v mu) fm (wprog fm o f mu) (fun '(ws, fn) => Some (fm, TWr (PWrite o f v mu) ws fn)) end).
  { cbn [fgo reads]. rewrite (get_node_ok _ _ _ Hf). cbn [bind]. rewrite EX. reflexivity. }
  destruct x as [(i, ch)|].
  - rewrite FG in H. injection H as <- <-. eapply goes1; [|apply pure_move; now rewrite ET].
    eapply (step_tau cs t first newNode4); rewrite EP; [exact Logic.I|]. cbn [tstep]. fold cm in Hc. fold cm. rewrite (get_node_ok _ _ _ Hc). cbn [bind]. rewrite EX. reflexivity.
  - eapply go_enter; [exact ET| | |exact H].
    + exists c. auto.
    + intros ws fn _ PR. rewrite FG. cbn [prog] in PR. rewrite PR. reflexivity.
Qed.
Lemma go_CWrite t o f v mu i c first m' x' : fs_thr s t = TAt (CWrite o f v mu i c) -> fgo first fm (TAt (CWrite o f v mu i c)) = Some (m', x') -> goes t m' x'.
Proof.
  intros ET H. eapply go_enter; [exact ET|exact Logic.I| |exact H]. intros ws fn _ PR. cbn [fgo reads]. cbn [prog] in PR. rewrite PR. reflexivity.
Qed.

(** One store *)
Lemma go_store t p a w ws fn first m' x' : fs_thr s t = TWr p ((a, w) :: ws) fn -> fgo first fm (TWr p ((a, w) :: ws) fn) = Some (m', x') -> goes t m' x'.
Proof.
  intros ET H. pose proof (sm_thr _ _ SM t) as EP. rewrite ET in EP. cbn [pc_of] in EP.
  pose proof (sm_rel _ _ SM t) as RL. rewrite ET in RL. cbn [rel] in RL. destruct RL as (NC & dn & PR & W & B). fold cm in NC, PR, W, B. fold fm in B.
  destruct (W (a, w) (or_introl eq_refl)) as (HI & WK). cbn [fst snd] in *. destruct (B a HI) as (c & cf & Hc & Hf & EN).
  destruct (fine_cell a c Hc) as (cf' & Hf' & V & TY & SH). assert (cf' = cf) by congruence. subst cf'.
  cbn [fgo] in H. rewrite (get_node_ok _ _ _ Hf) in H. cbn [bind] in H. rewrite (put_node_ok _ _ _ _ Hf) in H. cbn [tri] in H. injection H as <- <-.
  pose proof (cell_lt _ _ _ Hf) as LT. apply goes0; [rewrite ET; constructor|].
  eapply sim_upd; eauto.
  - apply (sm_root _ _ SM).
  - rewrite mlen_upd. apply (sm_len _ _ SM).
  - intros x cx. rewrite cell_upd by auto. destruct (Nat.eqb_spec a x) as [<-|N]; [|apply (sm_cell _ _ SM)].
    intros X. inversion X; subst. exists c. cbn [c_ver c_node]. rewrite wr_type. split; auto. split; auto. split; auto. rewrite TY. apply wr_shape; auto.
  - intros x X Y. rewrite cell_upd by auto. destruct (Nat.eqb_spec a x) as [<-|N]; [contradiction|].
    apply (sm_same _ _ SM). intros u Z. destruct (Nat.eq_dec u t) as [->|NU]; [rewrite ET in Z; contradiction|]. eapply Y; eauto.
  - cbn [rel]. split; auto. exists (dn ++ [(a, w)]). split; [now rewrite <- app_assoc|]. split; [intros y Y; apply W; right; auto|].
    intros x X. rewrite cell_upd by auto. destruct (B x X) as (c0 & cf0 & Hc0 & Hf0 & EN0).
    destruct (Nat.eqb_spec a x) as [<-|N].
    + exists c0. eexists. split; [exact Hc0|]. split; [reflexivity|]. cbn [c_node]. assert (c0 = c) by congruence. subst c0.
      rewrite wrs_app. unfold wrs at 1. cbn [fold_left fst snd]. now rewrite Nat.eqb_refl, EN.
    + exists c0, cf0. split; auto. split; auto. rewrite wrs_app. unfold wrs at 1. cbn [fold_left fst snd]. now rewrite (proj2 (Nat.eqb_neq a x) N).
  - intros u N. eapply rel_st; [apply (env_refl (held (s_thr cs u)) cm 0 (fun _ => None))|apply types_refl| |now rewrite (sm_thr _ _ SM)|apply (sm_rel _ _ SM)].
    intros x X. rewrite cell_upd by auto. destruct (Nat.eqb_spec a x) as [<-|]; auto. exfalso. apply N. eapply held_disj; eauto. now rewrite EP.
Qed.

(** The store through nodeLoc after the child has been unlocked *)
Lemma go_last t l c p first m' x' : fs_thr s t = TSt l c p -> fgo first fm (TSt l c p) = Some (m', x') -> goes t m' x'.
Proof.
  intros ET H. pose proof (sm_thr _ _ SM t) as EP. rewrite ET in EP. cbn [pc_of] in EP.
  pose proof (sm_rel _ _ SM t) as RL. rewrite ET in RL. cbn [rel] in RL. destruct RL as (a & i & cc & cf & -> & HI & Hc & Hf & LT & EN). fold cm in Hc. fold fm in Hf.
  destruct (fine_cell a cc Hc) as (cf' & Hf' & V & TY & SH). assert (cf' = cf) by congruence. subst cf'.
  cbn [fgo] in H. rewrite (store_slot_ok _ _ _ _ _ Hf LT) in H. cbn [tri] in H. injection H as <- <-. rewrite V, <- EN.
  assert (CE : mkCell (c_ver cc) (c_node cc) = cc) by (now destruct cc). rewrite CE. pose proof (cell_lt _ _ _ Hf) as L1. apply goes0; [rewrite ET; constructor|].
  eapply sim_upd; eauto.
  - apply (sm_root _ _ SM).
  - rewrite mlen_upd. apply (sm_len _ _ SM).
  - intros x cx. rewrite cell_upd by auto. destruct (Nat.eqb_spec a x) as [<-|N]; [|apply (sm_cell _ _ SM)].
    intros X. inversion X; subst. exists cx. split; auto. split; auto. split; auto. rewrite EN at 2. apply shape_children. exact SH.
  - intros x X Y. rewrite cell_upd by auto. destruct (Nat.eqb_spec a x) as [<-|N]; [auto|].
    apply (sm_same _ _ SM). intros u Z. destruct (Nat.eq_dec u t) as [->|NU]; [rewrite ET in Z; destruct Z as [Z|[]]; auto|]. eapply Y; eauto.
  - exact Logic.I.
  - intros u N. eapply rel_st; [apply (env_refl (held (s_thr cs u)) cm 0 (fun _ => None))|apply types_refl| |now rewrite (sm_thr _ _ SM)|apply (sm_rel _ _ SM)].
    intros x X. rewrite cell_upd by auto. destruct (Nat.eqb_spec a x) as [<-|]; auto. exfalso. apply N. eapply held_disj; eauto. now rewrite EP.
Qed.

(** Leaving a critical section *)
Lemma wrs_out a ws n : (forall x, In x ws -> fst x <> a) -> wrs a ws n = n.
Proof.
  revert n. unfold wrs. induction ws as [|x ws IH]; intros n H; cbn [fold_left]; auto.
  rewrite (proj2 (Nat.eqb_neq (fst x) a)) by (apply H; left; auto). apply IH. intros y Y. apply H. right; auto.
Qed.

Lemma leave_facts t p fn : fs_thr s t = TWr p [] fn -> exists ws m1 p1, s_thr cs t = p /\ plan cm p ws fn m1 p1 /\
  (forall a, In a (held p) -> cell_at fm a = cell_at (awrs cm ws) a) /\ (forall a, ~ In a (held p) -> cell_at (awrs cm ws) a = cell_at cm a).
Proof.
  intros ET. pose proof (sm_thr _ _ SM t) as EP. rewrite ET in EP. cbn [pc_of] in EP.
  pose proof (sm_rel _ _ SM t) as RL. rewrite ET in RL. cbn [rel] in RL. destruct RL as (NC & dn & PR & W & B). fold cm in NC, PR, W, B. fold fm in B.
  destruct (plan_ok hc cs t E ltac:(rewrite EP; exact NC)) as (ws & fn' & m1 & p1 & PL). rewrite EP in PL. fold cm in PL.
  pose proof (pl_prog _ _ _ _ _ _ PL) as PR'. rewrite PR, app_nil_r in PR'. apply Ok_inj in PR'. injection PR' as -> ->.
  exists ws, m1, p1. split; auto. split; auto. split.
  - intros a HI. destruct (B a HI) as (c & cf & Hc & Hf & EN). destruct (fine_cell a c Hc) as (cf' & Hf' & V & _). assert (cf' = cf) by congruence. subst cf'.
    rewrite cell_awrs, Hc, Hf. cbn [option_map]. rewrite <- V, <- EN. now destruct cf.
  - intros a HN. rewrite cell_awrs. destruct (cell_at cm a) as [c|]; cbn [option_map]; auto. rewrite wrs_out; [now destruct c|].
    intros x X Y. apply HN. rewrite <- Y. now apply (pl_ws _ _ _ _ _ _ PL).
Qed.

Lemma go_leave t p fn first m' x' : fs_thr s t = TWr p [] fn -> (forall c l, fn <> FUnl c l) -> fgo first fm (TWr p [] fn) = Some (m', x') -> goes t m' x'.
Proof.
  intros ET NU H. destruct (leave_facts t p fn ET) as (ws & m1 & p1 & EP & PL & AG & OU).
  destruct (run_both (held p) fm (awrs cm ws) fn m1) as (fm1 & RF & BO).
  { rewrite mlen_awrs. apply (sm_len _ _ SM). } { exact AG. } { rewrite root_awrs. apply (sm_root _ _ SM). }
  { exact (pl_loc _ _ _ _ _ _ PL). } { exact (pl_run _ _ _ _ _ _ PL). }
  assert (X : m' = fm1 /\ x' = TAt (after p)).
  { destruct fn as [|l q|l nn|c l]; cbn [fgo run_fin] in *; try (rewrite RF in H; cbn [tri] in H); try (injection H as <- <-; auto).
    - apply Ok_inj in RF. auto.
    - destruct (NU c l eq_refl). }
  destruct X as (-> & ->). clear H RF.
  assert (P1 : p1 = after p).
  { pose proof (pl_kind _ _ _ _ _ _ PL) as PK. destruct p; try (exact (proj2 PK)). destruct PK as (X & _). destruct (NU _ _ X). }
  subst p1. pose proof (pl_step _ _ _ _ _ _ PL true newNode4) as ST. rewrite <- EP in ST at 1.
  assert (RD : reads_ok (s_mem cs) (s_thr cs t) newNode4).
  { unfold reads_ok. rewrite EP. pose proof (pl_prog _ _ _ _ _ _ PL) as PR. destruct p; cbn in *; try discriminate; exact Logic.I. }
  destruct (coarse_step _ _ _ _ _ _ _ E RD ST) as (TY & r & A & r' & A' & _ & EV).
  assert (LM : mlen fm = mlen cm) by apply (sm_len _ _ SM).
  eapply goes1; [eapply step_tau; [exact RD|exact ST]|]. eapply sim_upd; eauto; cbn [s_thr s_mem].
  - apply upd_eq.
  - intros u N. now rewrite upd_ne.
  - exact (b_root _ _ _ _ _ BO).
  - exact (b_len _ _ _ _ _ BO).
  - intros a c Hc. destruct (in_dec Nat.eq_dec a (held p)) as [HI|HI]; [|destruct (Nat.lt_ge_cases a (mlen fm)) as [LA|LA]].
    + pose proof (b_in _ _ _ _ _ BO a (or_introl HI)) as X. rewrite Hc in X. exists c. split; auto. split; auto. split; auto.
      destruct (pl_has _ _ _ _ _ _ PL a HI) as (cc & Hcc). destruct (fine_cell a cc Hcc) as (cf & Hf & _ & TT & SH).
      destruct (b_kept _ _ _ _ _ BO a cf Hf) as (c2 & Hc2 & _ & KS). assert (c2 = c) by congruence. subst c2.
      pose proof (KS _ SH) as SH2. now rewrite (shape_type _ _ SH2).
    + destruct (b_out _ _ _ _ _ BO a LA HI) as (X1 & X2). rewrite X2, OU by auto. rewrite Hc in X1. apply (sm_cell _ _ SM). auto.
    + pose proof (b_in _ _ _ _ _ BO a (or_intror LA)) as X. rewrite Hc in X. exists c. split; auto. split; auto. split; auto.
      apply (pl_new _ _ _ _ _ _ PL a c); [lia|congruence].
  - intros a _ Y. destruct (in_dec Nat.eq_dec a (held p)) as [HI|HI]; [apply (b_in _ _ _ _ _ BO); auto|].
    destruct (Nat.lt_ge_cases a (mlen fm)) as [LA|LA]; [|apply (b_in _ _ _ _ _ BO); auto].
    destruct (b_out _ _ _ _ _ BO a LA HI) as (X1 & X2). rewrite X1, X2, OU by auto. apply (sm_same _ _ SM).
    intros u Z. destruct (Nat.eq_dec u t) as [->|N]; [rewrite ET in Z; contradiction|]. eapply Y; eauto.
  - exact Logic.I.
  - intros u N. eapply rel_st; [exact (EV u N)|exact TY| |now rewrite (sm_thr _ _ SM)|apply (sm_rel _ _ SM)].
    intros a HI. assert (HN : ~ In a (held p)). { intros X. apply N. eapply held_disj; eauto. now rewrite EP. }
    destruct (held_ver u a HI) as (c & Hc & _). apply cell_lt in Hc. destruct (b_out _ _ _ _ _ BO a ltac:(lia) HN) as (X1 & _). now rewrite X1.
Qed.

Lemma go_unlock t p fn first c l m' x' : fs_thr s t = TWr p [] fn -> fn = FUnl c l -> fgo first fm (TWr p [] fn) = Some (m', x') -> goes t m' x'.
Proof.
  intros ET -> H. destruct (leave_facts t p _ ET) as (ws & m1 & p1 & EP & PL & AG & OU).
  pose proof (pl_kind _ _ _ _ _ _ PL) as PK. pose proof (pl_prog _ _ _ _ _ _ PL) as PR.
  destruct p; try discriminate PR; [destruct PK as (PK & _); destruct (PK c l eq_refl)|].
  destruct PK as (X & (sl & EL) & TW & P1). injection X as -> ->. rename c0 into c. subst p1. cbn [held] in *.
  set (p := CWrite o f v mu i c) in *.
  assert (ND : NoDup [c; f_cur f; f_par f]).
  { destruct (GI_exec hc cs E) as (r & A & S & G). pose proof (l_nodup _ _ _ (g_lk _ _ _ _ _ G) t) as X. now rewrite EP in X. }
  assert (NE : f_par f <> c). { inversion ND as [|? ? X _]; subst. intros Y. apply X. right; left; auto. }
  (* the fine machine *)
  destruct (pl_has _ _ _ _ _ _ PL c ltac:(left; reflexivity)) as (cc & Hcc). destruct (fine_cell c cc Hcc) as (cf & Hf & VF & TF & SF).
  cbn [fgo] in H. rewrite (get_ver_ok _ _ _ Hf) in H. cbn [tri] in H. injection H as <- <-.
  (* the coarse machine *)
  pose proof (pl_run _ _ _ _ _ _ PL) as RN. cbn [run_fin] in RN. rewrite EL in RN. apply store_inv in RN as (pa & Hpa & LT & EM).
  pose proof (cell_lt _ _ _ Hpa) as LPA.
  assert (M1 : forall a, cell_at m1 a = if Nat.eqb (f_par f) a then Some (mkCell (c_ver pa) (set_children (c_node pa) (set_nth (n_children (c_node pa)) sl (Some (PNode c))))) else cell_at (awrs cm ws) a).
  { intros a. rewrite EM. now apply cell_upd. }
  assert (HPF : cell_at fm (f_par f) = Some pa) by (rewrite AG; [exact Hpa|right; right; left; reflexivity]).
  assert (Hc1 : cell_at m1 c = Some cf).
  { rewrite M1. rewrite (proj2 (Nat.eqb_neq _ _) NE). rewrite <- AG by (left; reflexivity). exact Hf. }
  pose proof (pl_step _ _ _ _ _ _ PL true newNode4) as ST1. rewrite <- EP in ST1 at 1.
  assert (RD1 : reads_ok (s_mem cs) (s_thr cs t) newNode4) by (unfold reads_ok; rewrite EP; exact Logic.I).
  set (q1 := PUnlock o ((c, false) :: unlocks f mu) true) in *. set (cs1 := mkSys m1 (upd_thr (s_thr cs) t q1)).
  assert (STEP1 : step cs (ETau t) cs1) by (eapply step_tau; [exact RD1|exact ST1]).
  destruct (coarse_step _ _ _ _ _ _ _ E RD1 ST1) as (TY1 & r1 & A1 & r1' & A1' & _ & EV1).
  assert (E1 : exec (hc ++ [ETau t]) cs1) by (econstructor; eauto).
  assert (T1 : s_thr cs1 t = q1) by apply upd_eq.
  set (q2 := PUnlock o (unlocks f mu) true). set (m2 := set_ver m1 c (c_ver cf + 2)).
  assert (ST2 : tstep true newNode4 (s_mem cs1) (s_thr cs1 t) = SGo m2 q2).
  { rewrite T1. cbn [s_mem cs1]. unfold q1. cbn [tstep]. unfold vunlock. rewrite (get_ver_ok _ _ _ Hc1). reflexivity. }
  assert (RD2 : reads_ok (s_mem cs1) (s_thr cs1 t) newNode4) by (unfold reads_ok; rewrite T1; exact Logic.I).
  destruct (coarse_step _ _ _ _ _ _ _ E1 RD2 ST2) as (TY2 & r2 & A2 & r2' & A2' & _ & EV2).
  set (cs2 := mkSys m2 (upd_thr (s_thr cs1) t q2)).
  assert (STEP2 : step cs1 (ETau t) cs2) by (eapply step_tau; [exact RD2|exact ST2]).
  exists [ETau t; ETau t], cs2. split; [econstructor; [exact STEP1|]; econstructor; [exact STEP2|constructor]|]. split; [auto|].
  cut (Sim (mkFS (set_ver fm c (c_ver cf + 2)) (fupd (fs_thr s) t (TSt (f_loc f) c (after p)))) cs2).
  { intros X. split; auto. split; [discriminate|]. right. exists c, cf. split; [rewrite EP; left; reflexivity|]. auto. }
  assert (LM : mlen fm = mlen cm) by apply (sm_len _ _ SM).
  assert (ML : mlen m1 = mlen cm) by (rewrite EM, mlen_upd; apply mlen_awrs).
  assert (CO : forall a ca, cell_at fm a = Some ca -> exists c', cell_at m1 a = Some c' /\ c_ver c' = c_ver ca /\ n_type (c_node c') = n_type (c_node ca) /\
     shape (n_type (c_node ca)) (c_node ca)).
  { intros a ca Ha. destruct (sm_cell _ _ SM a ca Ha) as (c' & Hc' & V & TT & SH). rewrite M1. destruct (Nat.eqb_spec (f_par f) a) as [<-|N].
    - assert (ca = pa) by congruence. subst ca. eexists. split; [reflexivity|]. cbn [c_ver c_node]. auto.
    - destruct (in_dec Nat.eq_dec a [c; f_cur f; f_par f]) as [HI|HI].
      + rewrite <- AG by auto. exists ca. auto.
      + rewrite OU by auto. exists c'. auto. }
  eapply sim_upd; eauto; cbn [s_thr s_mem cs2].
  - rewrite upd_eq. reflexivity.
  - intros u N. rewrite upd_ne by auto. cbn [cs1 s_thr]. now rewrite upd_ne.
  - unfold m2. rewrite (set_ver_eq _ _ _ _ Hc1), (set_ver_eq _ _ _ _ Hf). cbn [upd_cell m_root]. rewrite EM. cbn [upd_cell m_root].
    rewrite root_awrs. apply (sm_root _ _ SM).
  - unfold m2. rewrite (mlen_set_ver _ _ _ _ Hc1), (mlen_set_ver _ _ _ _ Hf). lia.
  - intros a ca. unfold m2. rewrite (cell_set_ver _ _ _ _ _ Hc1), (cell_set_ver _ _ _ _ _ Hf). destruct (Nat.eqb_spec c a) as [<-|N]; [|apply CO].
    intros X. inversion X; subst. eexists. split; [reflexivity|]. cbn [c_ver c_node]. rewrite TF. auto.
  - rewrite EL. cbn [dirty]. intros a NA Y. unfold m2. rewrite (cell_set_ver _ _ _ _ _ Hc1), (cell_set_ver _ _ _ _ _ Hf). destruct (Nat.eqb_spec c a) as [<-|N]; auto.
    rewrite M1. destruct (Nat.eqb_spec (f_par f) a) as [<-|N2]; [destruct NA; left; auto|].
    destruct (in_dec Nat.eq_dec a [c; f_cur f; f_par f]) as [HI|HI]; [now apply AG|]. rewrite OU by auto. apply (sm_same _ _ SM).
    intros u Z. destruct (Nat.eq_dec u t) as [->|NU]; [rewrite ET in Z; apply HI; exact Z|]. eapply Y; eauto.
  - cbn [rel]. rewrite EL. eexists (f_par f), sl, _, pa. split; [reflexivity|]. split; [change (In (f_par f) (map fst (unlocks f mu))); unfold unlocks; rewrite TW; right; left; reflexivity|].
    unfold m2. rewrite (cell_set_ver _ _ _ _ _ Hc1), (cell_set_ver _ _ _ _ _ Hf). rewrite (proj2 (Nat.eqb_neq c (f_par f))) by auto.
    rewrite M1, Nat.eqb_refl. split; [reflexivity|]. split; auto.
  - intros u N. assert (HU : s_thr cs1 u = s_thr cs u) by (now apply upd_ne).
    eapply (rel_st fm m1); [exact (EV2 u N)|exact TY2| |now rewrite HU, (sm_thr _ _ SM)|].
    + intros a _. rewrite (cell_set_ver _ _ _ _ _ Hf). destruct (Nat.eqb_spec c a) as [<-|]; auto. now rewrite Hf.
    + eapply (rel_st fm cm); [exact (EV1 u N)|exact TY1|auto|now rewrite (sm_thr _ _ SM)|apply (sm_rel _ _ SM)].
Qed.

Theorem sim_tau t first m' x' : fgo first fm (fs_thr s t) = Some (m', x') -> goes t m' x'.
Proof.
  intros H. destruct (fs_thr s t) as [p|p a rr|p ws fn|l c p] eqn:ET.
  - destruct (reads p) as [(a, v)|] eqn:R; [eapply go_reads; eauto|].
    destruct (plain p) eqn:PL; [eapply go_plain; eauto|].
    destruct p; try (cbn in PL; discriminate PL); try discriminate R; [eapply go_PWrite; eauto|eapply go_CWrite; eauto].
  - eapply go_read; eauto.
  - destruct ws as [|(a, w) ws]; [|eapply go_store; eauto]. destruct fn as [|l q|l nn|c l]; try (eapply go_leave; eauto; discriminate).
    eapply go_unlock; eauto.
  - eapply go_last; eauto.
Qed.
End SimStep.

Theorem sim_step hc s cs e s' : Sim s cs -> exec hc cs -> fstep s e s' ->
  exists l cs', steps cs l cs' /\ visible l = visible [e] /\ Sim s' cs'.
Proof.
  intros SM E ST. destruct ST as [t o ET VO|t o r ET|t first m' x' H].
  - pose proof (sm_thr _ _ SM t) as EP. rewrite ET in EP. exists [ECall t o]. eexists. split; [econstructor; [apply step_call; eauto|constructor]|].
    split; [reflexivity|]. apply (pure_move _ _ SM). now rewrite ET.
  - pose proof (sm_thr _ _ SM t) as EP. rewrite ET in EP. exists [ERet t r]. eexists. split; [econstructor; [eapply step_ret; eauto|constructor]|].
    split; [reflexivity|]. apply (pure_move _ _ SM). now rewrite ET.
  - destruct (sim_tau hc s cs SM E t first m' x' H) as (l & cs' & STS & FA & SM' & _). exists l, cs'. split; auto. split; auto.
    clear -FA. cbn [visible filter]. induction FA as [|e l -> _ IH]; auto.
Qed.

Lemma sim_init : Sim finit init.
Proof.
  constructor; cbn [fs_mem fs_thr finit init s_mem s_thr]; auto.
  - intros a c Hc. exists c. split; auto. split; auto. split; auto.
    unfold cell_at, New in Hc. cbn [m_cells] in Hc. destruct a as [|[|a]]; cbn [nth_error] in Hc; [| |destruct a; discriminate]; injection Hc as <-; cbn [c_node].
    + apply (shape_blank Dummy).
    + apply (shape_blank Node4).
  - intros t. exact Logic.I.
Qed.

Lemma visible_app h l : visible (h ++ l) = visible h ++ visible l.
Proof. apply filter_app. Qed.

Theorem sim_exec h s : fexec h s -> exists hc cs, exec hc cs /\ Sim s cs /\ visible hc = visible h.
Proof.
  intros F. induction F as [|h s e s' F (hc & cs & E & SM & V) ST]; [exists [], init; split; [constructor|]; split; [apply sim_init|reflexivity]|].
  destruct (sim_step hc s cs e s' SM E ST) as (l & cs' & STS & VL & SM'). exists (hc ++ l), cs'. split; [eapply steps_exec; eauto|].
  split; auto. now rewrite !visible_app, V, VL.
Qed.
