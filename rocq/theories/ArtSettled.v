(** * After any concurrent use the tree is a tree the sequential theorems speak of. *)
From Verif Require Import Base BitsModel BitsFacts VecModel VecProofs VecProofs2 ArtNode
  ArtNodeProofs ArtNodeProofs2 ArtNodeProofs3 ArtModel ArtSpec ArtTree ArtTree2 ArtRep ArtRep2
  ArtTree3 ArtSeq ArtMono ArtSeq2 ArtSeq3 ArtTop ArtDelSpec ArtDelExact ArtConc ArtConcHeap ArtConcInv ArtConcSpec ArtConcGlobal ArtConcLin ArtConcLock
  ArtFine ArtFineSpec ArtFineProofs ArtFineProps ArtSettledSpec.
Ltac Zify.zify_post_hook ::= Z.div_mod_to_equations.

Lemma mem_ext m m' : m_root m = m_root m' -> (forall a, nth_error (m_cells m) a = nth_error (m_cells m') a) -> m = m'.
Proof.
  destruct m as [c r], m' as [c' r']. cbn. intros -> H. f_equal. revert c' H. induction c as [|x c IH]; intros [|y c'] H; auto.
  - specialize (H 0). discriminate.
  - specialize (H 0). discriminate.
  - pose proof (H 0) as H0. cbn in H0. injection H0 as ->. f_equal. apply IH. intros a. apply (H (S a)).
Qed.
Lemma quiet_mem hc s cs : exec hc cs -> Sim s cs -> quiet s -> fs_mem s = s_mem cs.
Proof.
  intros E SM Q. apply mem_ext; [apply (sm_root _ _ SM)|]. intros a. apply (sm_same _ _ SM). intros u X.
  apply (dirty_held s cs SM) in X. rewrite (sm_thr _ _ SM) in X. pose proof (proj2 (fbit_held hc s cs a E SM) (ex_intro _ u X)) as L. rewrite Q in L. discriminate.
Qed.
(** A node that is neither locked nor retired is a node of the tree. *)
Lemma live_node h s r A S n c : GI h s r A S -> cell_at (s_mem s) n = Some c -> n <> 0 -> locked (c_ver c) = false -> obsolete (c_ver c) = false -> exists a, A n = Some a.
Proof.
  intros G Hc N NL NO. pose proof (mod4_bits (c_ver c)) as B. rewrite NL, NO in B. cbn in B. destruct (A n) as [a|] eqn:E; [eauto|exfalso].
  destruct (l_dead _ _ _ (g_lk _ _ _ _ _ G) n c Hc N E) as [X|(t & X)]; [lia|]. apply (l_doom _ _ _ (g_lk _ _ _ _ _ G)) in X as (X & _).
  destruct (l_held _ _ _ (g_lk _ _ _ _ _ G) _ _ X) as (c' & Hc' & V). assert (c' = c) by congruence. subst. lia.
Qed.
Lemma quiet_rep h s r A S : GI h s r A S -> (forall n, lockbit s n = false) -> hrep (s_mem s) r A.
Proof.
  intros G Q. pose proof (g_rep _ _ _ _ _ G) as K. pose proof (g_lk _ _ _ _ _ G) as LL.
  assert (U : forall n c, cell_at (s_mem s) n = Some c -> (n = 0 \/ A n <> None) -> unl (c_ver c)).
  { intros n c Hc D. destruct (l_mod _ _ _ LL n c Hc) as [X|[X|X]]; [exact X|exfalso|exfalso].
    - destruct (l_obs _ _ _ LL n c Hc X) as (N & Y). destruct D; auto.
    - specialize (Q n). unfold lockbit, cell_of in Q. unfold cell_at in Hc. rewrite Hc in Q. pose proof (mod4_bits (c_ver c)) as B. rewrite Q in B. destruct (obsolete (c_ver c)); cbn in B; lia. }
  constructor.
  - apply (k_root _ _ _ K).
  - apply (k_inv _ _ _ K).
  - destruct (k_dummy _ _ _ K) as (c & Hc). exists c. split; auto. split; [eapply U; eauto|]. now apply (k_type _ _ _ K 0 c Hc).
  - apply (k_zero _ _ _ K).
  - intros n a Ha. destruct (k_node _ _ _ K n a Ha) as (c & Hc & R). exists c. split; auto. split; auto. eapply U; eauto. right. congruence.
Qed.

Lemma quiet_all h s : fexec h s -> quiet s -> exists r A L st, hrep (fs_mem s) r A /\ is_map A L /\ lin h L st /\
  (forall t, fs_thr s t = TAt PIdle -> st t = SIdle) /\ forall t o, fs_thr s t = TAt (PCrash o) -> st t = SPend o.
Proof.
  intros F Q. destruct (sim_exec h s F) as (hc & cs & E & SM & V). destruct (GI_exec _ _ E) as (r & A & S & G).
  destruct (g_lin _ _ _ _ _ G (fun t => canon (s_thr cs t)) (fun t => canon_ok _ _)) as (L & M & X).
  exists r, A, L, (fun t => canon (s_thr cs t)). split; [|split; [|split; [|split]]].
  - rewrite (quiet_mem hc s cs E SM Q). eapply quiet_rep; eauto. intros n. rewrite <- (fsim_bit s cs n SM). apply Q.
  - intros k v. symmetry. apply M.
  - eapply lin_same; [apply lin_visible; exact X|congruence].
  - intros t ET. rewrite (sm_thr _ _ SM), ET. reflexivity.
  - intros t o ET. rewrite (sm_thr _ _ SM), ET. reflexivity.
Qed.

Theorem settled_map h s : fexec h s -> quiet s -> exists L st, lin h L st /\
  (forall t, fs_thr s t = TAt PIdle -> st t = SIdle) /\ (forall t o, fs_thr s t = TAt (PCrash o) -> st t = SPend o) /\
  forall ops m outs, Forall valid_op ops -> runs (fs_mem s) ops m outs ->
    outs = answers L ops /\ forall k, valid k -> returns (fun f => Get f m k) (latest (rev ops ++ L) k).
Proof.
  intros F Q. destruct (quiet_all h s F Q) as (r & A & L & st & H & M & LN & I1 & I2). exists L, st. do 3 (split; auto).
  intros ops m outs VO R. destruct (runs_rep _ _ _ _ _ _ _ R VO H M) as (E & r' & A' & H' & M'). split; auto. intros k VK. eapply Get_returns; eauto.
Qed.

Lemma settled_rep m : settled m -> exists r A h, hrep m r A /\ is_map A h.
Proof.
  intros (h & s & ops & outs & F & Q & VO & R). destruct (quiet_all h s F Q) as (r & A & L & st & H & M & _).
  destruct (runs_rep _ _ _ _ _ _ _ R VO H M) as (E & r' & A' & H' & M'). eauto.
Qed.
Lemma settled_step m o m' outs : settled m -> valid_op o -> runs m [o] m' outs -> settled m'.
Proof.
  intros (h & s & ops & outs0 & F & Q & V & R) VO R1. exists h, s, (ops ++ [o]), (outs0 ++ outs). split; auto. split; auto. split.
  { apply Forall_app. auto. }
  clear V F Q. remember (fs_mem s) as m0. clear Heqm0. induction R; cbn; auto; econstructor; eauto.
Qed.

(** Every node that is not retired can be reached from the root. *)
Lemma live_in_tree m r A : hrep m r A -> forall d n a, length (aW a) <= d -> A n = Some a -> in_tree m n.
Proof.
  intros H. pose proof (h_inv _ _ _ H) as I. induction d as [|d IH]; intros n a L Ha; (destruct (Nat.eq_dec n r) as [->|N]; [constructor; apply (h_root _ _ _ H)|]);
    destruct (ai_parent r A I n a Ha N) as (p & ap & b & Hp & Hb); destruct (ai_node r A I _ _ _ _ Hp Hb) as (a' & Ha' & P & LL); assert (a' = a) by congruence; subst a'; [lia|].
  destruct (h_node _ _ _ H _ _ Hp) as (c & Hc & _ & R). destruct (h_node _ _ _ H _ _ Ha) as (c2 & _ & _ & R2).
  assert (Bb : b < 256). { pose proof (nr_W _ _ _ R2) as W. destruct P as (x & EW). unfold bytes_ok in W. rewrite EW, !Forall_app in W. destruct W as [[_ W] _]. now inversion W. }
  eapply (in_child m p (c_node c) b n); [apply (IH p ap); auto; lia| |exact Bb|].
  - exists (c_ver c). unfold cell_at in Hc. rewrite Hc. now destruct c.
  - now rewrite (child_V _ _ _ _ R Bb), Hb.
Qed.
Theorem no_lost_node h s n c : fexec h s -> quiet s -> fcell s n = Some c -> n <> 0 -> obsolete (c_ver c) = false -> in_tree (fs_mem s) n.
Proof.
  intros F Q Hc N NO. destruct (sim_exec h s F) as (hc & cs & E & SM & V). destruct (GI_exec _ _ E) as (r & A & S & G).
  pose proof (quiet_mem hc s cs E SM Q) as EM. assert (NL : locked (c_ver c) = false) by (specialize (Q n); unfold flockbit in Q; now rewrite Hc in Q).
  unfold fcell in Hc. rewrite EM in *. destruct (live_node _ _ _ _ _ n c G Hc N NL NO) as (a & Ha).
  eapply live_in_tree; eauto. eapply quiet_rep; eauto. intros k. rewrite <- (fsim_bit s cs k SM). apply Q.
Qed.

(** At any moment of any concurrent use. *)
Theorem occupancy_always h s n c : fexec h s -> fcell s n = Some c -> n <> 0 -> locked (c_ver c) = false -> obsolete (c_ver c) = false ->
  min_children (n_type (c_node c)) <= children_count (c_node c) <= max_children (n_type (c_node c)) /\
  (m_root (fs_mem s) <> PNode n -> 2 <= entry_count (c_node c)) /\
  n_num (c_node c) = children_count (c_node c) mod 256.
Proof.
  intros F Hc N NL NO. destruct (sim_exec h s F) as (hc & cs & E & SM & V). destruct (GI_exec _ _ E) as (r & A & S & G).
  pose proof (clean_cell hc s cs n c E SM Hc NL) as Hc'. change (cell_at (s_mem cs) n = Some c) in Hc'.
  destruct (live_node _ _ _ _ _ n c G Hc' N NL NO) as (a & Ha). pose proof (g_rep _ _ _ _ _ G) as K. pose proof (k_live_cell _ _ _ _ _ _ K Ha Hc') as R.
  rewrite (count_nchild _ _ _ R), (entry_nleaf _ _ _ R). split; [|split].
  - split.
    + pose proof (nr_min _ _ _ R) as X. destruct (n_type (c_node c)); exact X.
    + pose proof (nr_layout _ _ _ R) as (_ & X & _). destruct (n_type (c_node c)); exact X.
  - intros Hroot. apply (nr_occ _ _ _ R). apply Nat.eqb_neq. intros ->. apply Hroot. rewrite (sm_root _ _ SM). apply (k_root _ _ _ K).
  - pose proof (nr_layout _ _ _ R) as (X & _). exact X.
Qed.
