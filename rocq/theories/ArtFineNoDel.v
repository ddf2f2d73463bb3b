(** * ArtFineNoDel: as long as nobody deletes, the unprotected loads of Put stay within
    their bounds: the length of a node's prefix never grows, and no child is taken out. *)
From Verif Require Import Base BitsModel BitsFacts VecModel VecProofs VecProofs2 ArtNode
  ArtNodeProofs ArtNodeProofs2 ArtNodeProofs3 ArtModel ArtSpec ArtTree ArtTree2 ArtRep ArtRep2
  ArtTree3 ArtSeq ArtMono ArtSeq2 ArtSeq3 ArtConc ArtConcHeap ArtConcInv ArtConcStep ArtConcStep2 ArtConcSpec
  ArtConcGlobal ArtConcLin ArtConcLock ArtFine ArtFineRead ArtFineWrite ArtFineProofs ArtFineSpec.
Ltac Zify.zify_post_hook ::= Z.div_mod_to_equations.

(** ** How a node changes *)
Record nmono (n n' : node) : Prop := {
  nm_type : n_type n' = n_type n;
  nm_plen : n_plen n' <= n_plen n;
  nm_index : forall i x, nth_error (n_index n) i = Some x -> x <> 0 -> exists x', nth_error (n_index n') i = Some x' /\ x' <> 0;
  nm_child : forall i p, nth_error (n_children n) i = Some (Some p) -> exists p', nth_error (n_children n') i = Some (Some p')
}.
Lemma nmono_refl n : nmono n n.
Proof. constructor; eauto. Qed.
Lemma nmono_trans a b c : nmono a b -> nmono b c -> nmono a c.
Proof.
  intros [A1 A2 A3 A4] [B1 B2 B3 B4]. constructor; [congruence|lia| |].
  - intros i x Hx N. destruct (A3 i x Hx N) as (y & Hy & M). eauto.
  - intros i x Hx. destruct (A4 i x Hx) as (y & Hy). eauto.
Qed.

Definition wgrow (n : node) (w : fw) : Prop :=
  match w with WPlen x => x <= n_plen n | WIdx _ x => x <> 0 | WChild _ c => c <> None | _ => True end.
Lemma set_some l i (p : ptr) j q : nth_error l j = Some (Some q) -> exists q', nth_error (set_nth l i (Some p)) j = Some (Some q').
Proof.
  intros H. rewrite nth_error_set_nth. destruct (Nat.eqb_spec i j) as [<-|]; [|eauto].
  assert (L : i < length l) by (apply nth_error_Some; congruence). rewrite (proj2 (Nat.ltb_lt _ _) L). eauto.
Qed.
Lemma set_nz l i x j (y : nat) : x <> 0 -> nth_error l j = Some y -> y <> 0 -> exists z, nth_error (set_nth l i x) j = Some z /\ z <> 0.
Proof.
  intros X H N. rewrite nth_error_set_nth. destruct (Nat.eqb_spec i j) as [<-|]; [|eauto].
  assert (L : i < length l) by (apply nth_error_Some; congruence). rewrite (proj2 (Nat.ltb_lt _ _) L). eauto.
Qed.
Lemma wr_mono n w : wgrow n w -> nmono n (wr n w).
Proof.
  intros H. destruct w; cbn [wr wgrow] in *; constructor; cbn; auto; try (intros; eauto; fail).
  - destruct c as [p|]; [|contradiction]. intros. now apply set_some with (q := p0).
  - intros. eapply set_nz; eauto.
Qed.

Definition mmono (m m' : mem) : Prop := forall a c, cell_at m a = Some c ->
  exists c', cell_at m' a = Some c' /\ (c_ver c <= c_ver c')%N /\ nmono (c_node c) (c_node c').
Lemma mmono_refl m : mmono m m.
Proof. intros a c Hc. exists c. split; auto. split; [lia|apply nmono_refl]. Qed.
Lemma mmono_put m a c nd : cell_at m a = Some c -> nmono (c_node c) nd -> mmono m (upd_cell m a (mkCell (c_ver c) nd)).
Proof.
  intros Hc N x cx Hx. rewrite cell_upd by (eapply cell_lt; eauto). destruct (Nat.eqb_spec a x) as [<-|].
  - assert (cx = c) by congruence. subst. eexists. split; [reflexivity|]. cbn. split; [lia|auto].
  - exists cx. split; auto. split; [lia|apply nmono_refl].
Qed.
Lemma mmono_trans a b c : mmono a b -> mmono b c -> mmono a c.
Proof.
  intros X Y n x Hx. destruct (X n x Hx) as (y & Hy & V1 & N1). destruct (Y n y Hy) as (z & Hz & V2 & N2).
  exists z. split; auto. split; [lia|]. eapply nmono_trans; eauto.
Qed.
Lemma mmono_store m l q m' : store m l q = Ok m' -> mmono m m'.
Proof.
  destruct l as [|a i]; intros H.
  - cbn [store] in H. apply Ok_inj in H. subst m'. intros a c Hc. exists c. split; [exact Hc|]. split; [lia|apply nmono_refl].
  - apply store_inv in H as (c & Hc & L & ->). apply mmono_put; auto. constructor; cbn; auto; intros; eauto. eapply set_some; eauto.
Qed.
Lemma mmono_place m l nn m' : place m l nn = Ok m' -> mmono m m'.
Proof.
  unfold place. cbn [alloc]. intros H. apply mmono_store in H. eapply mmono_trans; [|exact H].
  intros a c Hc. exists c. split; [|split; [lia|apply nmono_refl]]. unfold cell_at in *. cbn [m_cells].
  rewrite nth_error_app1; auto. apply nth_error_Some. congruence.
Qed.

(** A node whose first child can be looked for. *)
Definition live1 (n : node) : Prop :=
  match n_type n with
  | Node4 | Node16 => True
  | Node48 => exists i x, nth_error (n_index n) i = Some x /\ x <> 0
  | Node256 => exists i p, nth_error (n_children n) i = Some (Some p)
  | Dummy => False
  end.
Lemma live1_mono n n' : nmono n n' -> live1 n -> live1 n'.
Proof.
  intros [T _ X Y]. unfold live1. rewrite T. destruct (n_type n); auto.
  - intros (i & x & Hx & N). destruct (X i x Hx N) as (x' & ? & ?). eauto.
  - intros (i & x & Hx). destruct (Y i x Hx) as (x' & ?). eauto.
Qed.
Lemma rep_live1 root n a : nrep root n a -> 0 < nchild n -> live1 n.
Proof.
  intros R P. destruct (firstChild_spec n (nr_layout _ _ _ R) P) as (b & p & _ & E). pose proof (nr_layout _ _ _ R) as (_ & _ & L).
  unfold V in E. unfold live1. destruct (n_type n); auto.
  - destruct (nth b (n_index n) 0) as [|x] eqn:Ex; [discriminate|]. exists b, (S x). split; [|discriminate].
    rewrite <- Ex. apply nth_error_nth'. destruct (Nat.lt_ge_cases b (length (n_index n))) as [|G]; auto. rewrite nth_overflow in Ex by auto. discriminate.
  - exists b, p. rewrite <- E. apply nth_error_nth'. destruct (Nat.lt_ge_cases b (length (n_children n))) as [|G]; auto.
    rewrite nth_overflow in E by auto. discriminate.
Qed.

(** ** What a goroutine knows *)
Definition at_node (m : mem) (a : nat) (P : node -> Prop) : Prop := exists c, cell_at m a = Some c /\ P (c_node c).
Lemma at_mono m m' a (P : node -> Prop) : (forall n n', nmono n n' -> P n -> P n') -> mmono m m' -> at_node m a P -> at_node m' a P.
Proof. intros S M (c & Hc & H). destruct (M a c Hc) as (c2 & Hc2 & _ & N). exists c2. split; auto. eapply S; eauto. Qed.
Lemma at_cell m a c P : cell_at m a = Some c -> at_node m a P -> P (c_node c).
Proof. intros H (c' & H' & X). congruence. Qed.

Definition nodel (p : pc) : Prop := match pc_op p with Some (ODelete _) => False | _ => True end.
Definition XI (m : mem) (p : pc) : Prop :=
  match p with
  | PCrash _ | CWait _ _ _ _ _ _ | CCas _ _ _ _ _ _ _ | CWrite _ _ _ _ _ _ => False
  | IMis1 o f v => at_node m (f_cur f) (fun n => n_plen n <= 8)
  | IPl o f v q _ => f_depth f + q <= length (op_key o)
  | IDep o f v => at_node m (f_cur f) (fun n => f_depth f + n_plen n <= length (op_key o))
  | IFind o f v d => d < length (op_key o)
  | FPar o f v got => Gone m (f_par f) (f_pv f) \/
      at_node m (f_cur f) (fun n => match got with Some fk => f_depth f + n_plen n <= length fk | None => live1 n end)
  | IMis2 o f v fk => at_node m (f_cur f) (fun n => f_depth f + n_plen n <= length fk)
  | FRd o f v x vx => at_node m x live1
  | FVal o f v x vx next => Gone m x vx \/ next <> None
  | _ => True
  end.

(** How a group of reads can end when the node only changes as above. *)
Definition XR (a pl : nat) (p : pc) : Prop :=
  match p with
  | PCrash _ | CWait _ _ _ _ _ _ | CCas _ _ _ _ _ _ _ | CWrite _ _ _ _ _ _ | FPar _ _ _ _ | IMis2 _ _ _ _ | FRd _ _ _ _ _ => False
  | IMis1 o f v => f_cur f = a /\ pl <= 8
  | IPl o f v q _ => f_depth f + q <= length (op_key o)
  | IDep o f v => f_cur f = a /\ f_depth f + pl <= length (op_key o)
  | IFind o f v d => d < length (op_key o)
  | _ => True
  end.
Lemma XR_mono a pl pl' p : pl' <= pl -> XR a pl p -> XR a pl' p.
Proof. intros L. destruct p; cbn [XR]; auto; intros (X & Y); split; auto; lia. Qed.

Section Souts.
Context (t : ntype) (a : nat).
Inductive souts : node -> rd -> Prop :=
  | so_done n p : XR a (n_plen n) p -> souts n (RDone p)
  | so_more n r : (forall n', nmono n n' -> shape t n' -> souts n' (rstep n' r)) -> souts n r.
Lemma souts_mono n n' r : souts n r -> nmono n n' -> souts n' r.
Proof.
  intros H M. destruct H as [n p X|n r X].
  - apply so_done. eapply XR_mono; [|exact X]. apply M.
  - apply so_more. intros n2 M2. apply X. eapply nmono_trans; eauto.
Qed.
Lemma souts_step n r : shape t n -> souts n r -> souts n (rstep n r).
Proof. intros S H. destruct H as [n p X|n r X]; [now apply so_done|]. apply X; auto. apply nmono_refl. Qed.
Lemma souts_fin n p : shape t n -> souts n (RDone p) -> XR a (n_plen n) p.
Proof.
  intros S H. remember (RDone p) as r eqn:E. revert S. induction H as [n q X|n r X IH]; intros S; [congruence|].
  subst r. apply (IH n (nmono_refl n) S); auto.
Qed.

Lemma miss_souts o key k f : forall i n, i + f <= 8 -> i + f <= length key ->
  (forall j n', j <= i + f -> souts n' (k j)) -> souts n (miss_rd o key k f i).
Proof.
  induction f as [|f IH]; intros i n L1 L2 K; cbn [miss_rd]; [apply K; lia|].
  apply so_more. intros n' M S. cbn [rstep]. destruct S as (_ & S & _). rewrite (idx_in _ i 0) by lia. cbn [orc].
  rewrite (idx_in key i 0) by lia. cbn [orc]. destruct (Nat.eqb _ _); [|apply K; lia].
  apply IH; try lia. intros j n2 Hj. apply K. lia.
Qed.

Lemma first48_souts o k f : t = Node48 -> (forall c n', souts n' (k c)) -> forall i n, i + f = 256 ->
  (exists j x, i <= j /\ nth_error (n_index n) j = Some x /\ x <> 0) -> shape t n -> souts n (first48_rd o k f i).
Proof.
  intros ET K. induction f as [|f IH]; intros i n L (j & x & Lj & Hx & N) S; cbn [first48_rd].
  - exfalso. rewrite ET in S. destruct S as (_ & _ & S & _). assert (j < length (n_index n)) by (apply nth_error_Some; congruence). lia.
  - apply so_more. intros n' M S'. cbn [rstep]. pose proof S' as S2. rewrite ET in S2. destruct S2 as (_ & _ & S1 & S2 & S3 & _).
    destruct (nm_index _ _ M j x Hx N) as (x' & Hx' & N'). rewrite (idx_in _ i 0) by lia. cbn [orc].
    destruct (Nat.eqb_spec (nth i (n_index n') 0) 0) as [Z|Z].
    + apply IH; auto; [lia|]. exists j, x'. split; auto. destruct (Nat.eq_dec i j) as [<-|]; [|lia].
      erewrite nth_error_nth in Z by eauto. contradiction.
    + apply so_more. intros n2 M2 T2. cbn [rstep]. rewrite ET in T2. destruct T2 as (_ & _ & _ & T2 & _).
      assert (nth i (n_index n') 0 <= 48). { rewrite Forall_forall in S3. apply S3. apply nth_In. lia. }
      rewrite (idx_in _ _ None) by lia. cbn [orc]. apply K.
Qed.
Lemma first256_souts o k f : t = Node256 -> (forall c n', souts n' (k c)) -> forall i n, i + f = 256 ->
  (exists j p, i <= j /\ nth_error (n_children n) j = Some (Some p)) -> shape t n -> souts n (first256_rd o k f i).
Proof.
  intros ET K. induction f as [|f IH]; intros i n L (j & p & Lj & Hx) S; cbn [first256_rd].
  - exfalso. rewrite ET in S. destruct S as (_ & _ & S & _). assert (j < length (n_children n)) by (apply nth_error_Some; congruence). lia.
  - apply so_more. intros n' M S'. cbn [rstep]. pose proof S' as S2. rewrite ET in S2. destruct S2 as (_ & _ & S1 & _).
    destruct (nm_child _ _ M j p Hx) as (p' & Hp'). rewrite (idx_in _ i None) by lia. cbn [orc].
    destruct (nth i (n_children n') None) as [q|] eqn:Q; [apply K|].
    apply IH; auto; [lia|]. exists j, p'. split; auto. destruct (Nat.eq_dec i j) as [<-|]; [|lia].
    erewrite nth_error_nth in Q by eauto. discriminate.
Qed.
Lemma first_souts o k n : (forall c n', souts n' (k c)) -> shape t n -> live1 n -> souts n (first_rd o k t).
Proof.
  intros K S LV. unfold live1 in LV. rewrite (shape_type _ _ S) in LV. destruct t eqn:ET; cbn [first_rd]; rewrite <- ET in *.
  - apply so_more. intros n' M S'. cbn [rstep]. rewrite ET in S'. destruct S' as (_ & _ & _ & S' & _). rewrite (idx_in _ 0 None) by lia. cbn [orc]. apply K.
  - apply so_more. intros n' M S'. cbn [rstep]. rewrite ET in S'. destruct S' as (_ & _ & _ & S' & _). rewrite (idx_in _ 0 None) by lia. cbn [orc]. apply K.
  - destruct LV as (i & x & Hx & N). apply first48_souts; auto. exists i, x. split; auto. lia.
  - destruct LV as (i & p & Hx). apply first256_souts; auto. exists i, p. split; auto. lia.
  - contradiction.
Qed.

Lemma miss_loop_in x y f : forall i, i + f <= length x -> i + f <= length y -> exists j, miss_loop x y f i = Ok j /\ i <= j <= i + f.
Proof.
  induction f as [|f IH]; intros i L1 L2; cbn [miss_loop]; [exists i; split; auto; lia|].
  rewrite (idx_in x i 0), (idx_in y i 0) by lia. cbn [bind]. destruct (Nat.eqb _ _); [|exists i; split; auto; lia].
  destruct (IH (i + 1)) as (j & E & H); [lia|lia|]. exists j. split; auto. lia.
Qed.

Definition guarded (p : pc) : bool :=
  match p with IMis _ _ _ | IMis1 _ _ _ | FRd _ _ _ _ _ | IMis2 _ _ _ _ | IPl _ _ _ _ _ | IDep _ _ _ => true | _ => false end.
Lemma rprog_souts pt m c v p : reads p = Some (a, v) -> guarded p = true -> cell_at m a = Some c -> shape t (c_node c) ->
  match p with IMis1 o f _ | IMis2 o f _ _ => f_depth f <= length (op_key o) | _ => True end ->
  XI m p -> souts (c_node c) (rprog t pt p).
Proof.
  intros R G Hc SH DP X. destruct p; try discriminate G; cbn [reads] in R; injection R as Ra Rv; rewrite <- Ra in Hc; cbn [rprog XI] in *.
  - apply so_more. intros n' M S. cbn [rstep]. apply so_done. unfold maxPrefixLen. destruct (Nat.leb_spec (n_plen n') 8); cbn; auto.
  - apply so_more. intros n' M S. cbn [rstep]. apply (at_cell _ _ _ _ Hc) in X; cbv beta in X. pose proof (nm_plen _ _ M) as L.
    unfold slice_from. rewrite (proj2 (Nat.leb_le _ _) DP). cbn [orc]. apply miss_souts.
    + lia.
    + rewrite skipn_length. lia.
    + intros j n2 Hj. apply so_done. cbn. lia.
  - apply (at_cell _ _ _ _ Hc) in X. apply so_more. intros n' M S. cbn [rstep]. destruct (n_pleaf n').
    + apply so_more. intros n2 M2 S2. cbn [rstep]. apply so_done. exact Logic.I.
    + apply first_souts; auto; [|eapply live1_mono; eauto]. intros q n2. apply so_done. exact Logic.I.
  - apply so_more. intros n' M S. cbn [rstep]. apply (at_cell _ _ _ _ Hc) in X; cbv beta in X. pose proof (nm_plen _ _ M) as L.
    destruct (miss_loop_in (op_key o) fk (Nat.min (length (op_key o)) (f_depth f + n_plen n') - f_depth f) (f_depth f)) as (j & -> & Hj); [lia|lia|].
    cbn [orc]. apply so_done. cbn. lia.
  - apply so_more. intros n' M S. cbn [rstep]. apply so_done. destruct (Nat.eqb_spec p (n_plen n')) as [E|]; cbn; auto. split; auto. lia.
  - apply so_more. intros n' M S. cbn [rstep]. apply (at_cell _ _ _ _ Hc) in X; cbv beta in X. pose proof (nm_plen _ _ M) as L. apply so_done.
    destruct (Nat.eqb_spec (f_depth f + n_plen n') (length (op_key o))); [exact Logic.I|].
    rewrite (proj2 (Nat.ltb_lt _ _)) by lia. cbn. lia.
Qed.
End Souts.

Lemma Gone_mono m m' a v : mmono m m' -> Gone m a v -> Gone m' a v.
Proof. intros M (c & Hc & L). destruct (M a c Hc) as (c' & Hc' & V & _). exists c'. split; auto. lia. Qed.
Lemma XI_mono m m' p : mmono m m' -> XI m p -> XI m' p.
Proof.
  intros M. destruct p; cbn [XI]; auto; try (apply at_mono; auto; intros n n' N; pose proof (nm_plen _ _ N); cbv beta; lia).
  - intros [X|X]; [left; eapply Gone_mono; eauto|right]. revert X. apply at_mono; auto. intros n n' N. destruct got; [pose proof (nm_plen _ _ N); lia|now apply live1_mono].
  - apply at_mono; auto. intros n n'. apply live1_mono.
  - intros [X|X]; [left; eapply Gone_mono; eauto|auto].
Qed.

Definition NT (m : mem) (x : ft) : Prop :=
  match x with
  | TAt p => XI m p
  | TRd p a r => XI m p /\ (guarded p = true -> at_node m a (fun n => souts (n_type n) a n r))
  | TWr p _ _ => match p with PWrite _ _ _ _ => True | _ => False end
  | TSt _ _ _ => False
  end.
Lemma NT_mono m m' x : mmono m m' -> NT m x -> NT m' x.
Proof.
  intros M. destruct x as [p|p a r|p ws fn|l c p]; cbn [NT]; auto; [now apply XI_mono|].
  intros (X0 & H). split; [eapply XI_mono; eauto|]. intros G. specialize (H G). revert H. apply at_mono; auto. intros n n' N X. rewrite (nm_type _ _ N). eapply souts_mono; eauto.
Qed.

(** The stores of Put *)
Lemma pair1 {A B} (a b : A) (c d : B) : (a, c) = (b, d) -> a = b.
Proof. congruence. Qed.
Lemma split_plen a n k fk v d p n' nn : insertSplitPrefix a n k fk v d p = Ok (n', nn) -> n_plen n' <= n_plen n.
Proof.
  unfold insertSplitPrefix. intros E. apply bind_inv in E as (nn0 & _ & E). apply bind_inv in E as (px & _ & E).
  apply bind_inv in E as (((pos & plen) & tmp) & E1 & E). apply bind_inv in E as (nn3 & _ & E). apply Ok_inj, pair1 in E. subst n'.
  cbn [set_prefix set_plen n_plen]. cut (plen = n_plen n - (p + 1)); [lia|]. destruct (Nat.leb (n_plen n) maxPrefixLen).
  - apply bind_inv in E1 as (? & _ & E1). apply bind_inv in E1 as (? & _ & E1). apply bind_inv in E1 as (? & _ & E1). apply Ok_inj in E1. congruence.
  - apply bind_inv in E1 as (? & _ & E1). apply bind_inv in E1 as (? & _ & E1). apply bind_inv in E1 as (? & _ & E1). apply Ok_inj in E1. congruence.
Qed.
Lemma put_ws m k v f mu dn a w ws fn n : wprog m (OPut k v) f mu = Ok (dn ++ (a, w) :: ws, fn) -> get_node m (f_cur f) = Ok n ->
  a = f_cur f /\ match w with WPlen x => dn = [] /\ x <= n_plen n | WIdx _ x => x <> 0 | WChild _ c => c <> None | _ => True end.
Proof.
  intros H HN. unfold wprog in H. rewrite HN in H. cbn [bind] in H.
  assert (IN : forall l, on (f_cur f) l = dn ++ (a, w) :: ws -> a = f_cur f /\ In w l).
  { intros l E. assert (X : In (a, w) (on (f_cur f) l)) by (rewrite E; apply in_or_app; right; left; auto).
    unfold on in X. apply in_map_iff in X as (y & Y & X). injection Y as -> ->. auto. }
  destruct mu; try discriminate.
  - apply bind_inv in H as ((n' & nn) & E & H). apply Ok_inj in H. apply pair1 in H.
    destruct (IN _ H) as (-> & W). split; auto. destruct w; auto.
    + destruct dn as [|y dn].
      * split; auto. assert (HD : (f_cur f, WPlen (n_plen n')) = (f_cur f, WPlen x)) by exact (f_equal (hd (0, WNum 0)) H). injection HD as <-. eapply split_plen; eauto.
      * exfalso. assert (HT : on (f_cur f) (pre_writes (n_prefix n')) = dn ++ (f_cur f, WPlen x) :: ws) by exact (f_equal (@tl _) H). assert (X : In (f_cur f, WPlen x) (on (f_cur f) (pre_writes (n_prefix n')))) by (rewrite HT; apply in_or_app; right; left; auto).
        unfold on, pre_writes in X. rewrite map_map in X. apply in_map_iff in X as (i & X & _). discriminate.
    + exfalso. destruct W as [W|W]; [discriminate|]. unfold pre_writes in W. apply in_map_iff in W as (? & W & _). discriminate.
    + exfalso. destruct W as [W|W]; [discriminate|]. unfold pre_writes in W. apply in_map_iff in W as (? & W & _). discriminate.
  - apply Ok_inj in H. apply pair1 in H. destruct (IN _ H) as (-> & [<-|[]]). auto.
  - apply bind_inv in H as (b & _ & H). apply bind_inv in H as (nn & _ & H). apply Ok_inj in H. apply pair1 in H. now destruct dn.
  - apply bind_inv in H as (b & _ & H). apply bind_inv in H as (nn & _ & H). apply Ok_inj in H. apply pair1 in H.
    destruct (IN _ H) as (-> & W). split; auto. unfold ins_writes in W. destruct (n_type n); cbn [In] in W;
      repeat (destruct W as [<-|W]; [try discriminate; auto; lia|]); contradiction.
  - apply bind_inv in H as (r & _ & H). destruct r; apply Ok_inj in H; apply pair1 in H; now destruct dn.
Qed.

(** ** One step *)
Section NStep.
Context (hc : list ev) (s : fsys) (cs : sys) (SM : Sim s cs) (E : exec hc cs).
Let fm := fs_mem s.
Let cm := s_mem cs.

Lemma gone_fine a v : Gone cm a v -> Gone fm a v.
Proof. intros (c & Hc & L). destruct (fine_cell s cs SM a c Hc) as (cf & Hf & V & _). exists cf. split; auto. now rewrite V. Qed.
Lemma gone_coarse a v : Gone fm a v -> Gone cm a v.
Proof. intros (c & Hc & L). destruct (sm_cell _ _ SM a c Hc) as (cc & Hcc & V & _). exists cc. split; auto. now rewrite V. Qed.

Section Thread.
Context (r : nat) (A : aheap) (S : nat -> seen) (G : GI hc cs r A S) (t : nat).
Let K : crep cm r A := g_rep _ _ _ _ _ G.
Let LI0 : LI cm A := LK_LI _ _ _ (g_lk _ _ _ _ _ G).

(** A node that is below the root has a child. *)
Lemma long_live n a c : A n = Some a -> aW a <> [] -> cell_at cm n = Some c -> aLeaf a = None \/ True -> 0 < nchild (c_node c).
Proof.
  intros Ha N Hc _. pose proof (k_live_cell _ _ _ _ _ _ K Ha Hc) as R.
  assert (ER : Nat.eqb n r = false).
  { apply Nat.eqb_neq. intros ->. destruct (ai_root r A (k_inv _ _ _ K)) as (ar & Hr & E1 & _). congruence. }
  pose proof (nr_occ _ _ _ R ER) as OC. destruct (aLeaf a); cbn [nleaf] in OC; lia.
Qed.

Lemma fine_live n a c : A n = Some a -> aW a <> [] -> cell_at cm n = Some c -> unl (c_ver c) -> at_node fm n live1.
Proof.
  intros Ha N Hc U. exists c. split; [apply (clean_unl _ _ _ SM E); auto|].
  eapply rep_live1; [eapply k_live_cell; eauto|]. eapply long_live; eauto.
Qed.

Lemma plain_XI first nd p m2 p' : s_thr cs t = p -> plain p = true -> nodel p -> XI fm p -> tstep first nd cm p = SGo m2 p' -> XI fm p'.
Proof.
  intros EP PL ND X H. pose proof (g_thr _ _ _ _ _ G t) as T. rewrite EP in T. fold cm in T.
  assert (PAR : forall o f, FI cm r A (S t) o f -> exists c, cell_at cm (f_par f) = Some c) by (intros o f F; exact (par_cell _ _ _ _ _ _ F)).
  assert (CUR : forall o f, FI cm r A (S t) o f -> exists c, cell_at cm (f_cur f) = Some c) by (intros o f F; exact (cur_cell _ _ _ _ _ _ F)).
  assert (VC : forall o a v ok bad, (exists c, cell_at cm a = Some c) -> vcheck cm o a v ok bad = SGo m2 p' -> p' = ok \/ p' = bad).
  { intros o a v ok bad (c & Hc) Y. apply (vcheck_inv _ _ _ _ _ _ _ _ c Hc) in Y as (_ & [(_ & ->)|(_ & ->)]); auto. }
  assert (CS : forall o a v ok bad, (exists c, cell_at cm a = Some c) -> vcas cm o a v ok bad = SGo m2 p' -> p' = ok \/ p' = bad).
  { intros o a v ok bad (c & Hc) Y. apply (vcas_inv _ _ _ _ _ _ _ _ c Hc) in Y as [(_ & _ & ->)|(_ & _ & ->)]; auto. }
  destruct p; try discriminate PL; try discriminate H; cbn [TI XI tstep] in *; try contradiction.
  - (* PStart *) destruct first.
    + rewrite (k_root _ _ _ K) in H. apply go_inv in H as (_ & ->). exact Logic.I.
    + destruct (k_dummy _ _ _ K) as (c & Hc). rewrite (get_ver_ok _ _ _ Hc) in H. cbn [lift] in H. destruct (locked _); [discriminate|].
      apply go_inv in H as (_ & ->). exact Logic.I.
  - destruct (k_dummy _ _ _ K) as (c & Hc). rewrite (get_ver_ok _ _ _ Hc) in H. cbn [lift] in H. destruct (locked _); [discriminate|].
    apply go_inv in H as (_ & ->). exact Logic.I.
  - rewrite (k_root _ _ _ K) in H. apply go_inv in H as (_ & ->). exact Logic.I.
  - destruct (CUR _ _ T) as (c & Hc). pose proof (rlock_inv cm o _ _ _ m2 p' c Hc (li_mod _ _ LI0 _ _ Hc) H) as (_ & [(_ & ->)| ->]); [|exact Logic.I].
    destruct o; exact Logic.I.
  - destruct T as (F & _). destruct (VC _ _ _ _ _ (PAR _ _ F) H) as [->| ->]; exact Logic.I.
  - destruct T as (F & _). destruct (VC _ _ _ _ _ (CUR _ _ F) H) as [->| ->]; exact Logic.I.
  - (* PNext *)
    destruct (s_PNext cm r A K (S t) o f v d next slot pos T) with (first := first) (nd := nd) (m' := m2) (p' := p') as (r' & A' & _ & _ & T' & PO & _).
    { intros x Hx. apply (g_seen _ _ _ _ _ G t o x); [now rewrite EP|exact Hx]. } { exact Logic.I. } { exact H. }
    destruct T as (F & _). destruct (CUR _ _ F) as (c & Hc). rewrite (get_ver_ok _ _ _ Hc) in H. cbn [lift] in H.
    destruct (N.eqb v (c_ver c)); cbn [negb] in H; [|apply go_inv in H as (_ & ->); exact Logic.I].
    destruct o as [k w|k|k]; [| |destruct ND].
    + destruct next as [np|]; apply go_inv in H as (_ & ->); exact Logic.I.
    + destruct next as [[y|l]|]; try (apply go_inv in H as (_ & ->); exact Logic.I).
      apply lift_inv in H as [(mt & _ & H)|(_ & _ & ->)]; [|discriminate T']. destruct mt; [|apply go_inv in H as (_ & ->); exact Logic.I].
      apply lift_inv in H as [(x & _ & H)|(_ & _ & ->)]; [|discriminate T']. apply go_inv in H as (_ & ->); exact Logic.I.
  - (* FChk *)
    destruct T as (F & NP & JJ & GK). destruct (CUR _ _ F) as (c & Hc). pose proof (vcheck_inv cm o _ _ _ _ m2 p' c Hc H) as (_ & [(V & ->)|(V & ->)]); [|exact Logic.I].
    cbn [XI]. destruct (J_now _ _ _ _ _ _ _ JJ Hc V) as [(_ & X2)|((a & Ha & Hd & _) & P8)]; [left; now apply gone_fine|right].
    specialize (P8 a Ha). assert (U : unl (c_ver c)) by (rewrite V; exact (proj1 (proj1 JJ))).
    destruct got as [fk|].
    + exists c. split; [apply (clean_unl _ _ _ SM E); auto|]. rewrite (nr_plen _ _ _ (k_live_cell _ _ _ _ _ _ K Ha Hc)), Hd.
      destruct GK as (W & W1 & W2). rewrite <- (W1 a Ha) in W2. now apply is_prefix_length.
    + eapply fine_live; eauto. intros E0. rewrite E0 in Hd. cbn in Hd. lia.
  - (* FPar *)
    destruct T as (F & NP & JJ & GK). destruct (PAR _ _ F) as (c & Hc). pose proof (vcheck_inv cm o _ _ _ _ m2 p' c Hc H) as (_ & [(V & ->)|(V & ->)]); [|exact Logic.I].
    destruct X as [X|X]; [exfalso; exact (no_gone _ _ _ _ Hc V (gone_coarse _ _ X))|]. destruct got; exact X.
  - (* FVal *)
    destruct T as (F & NP & JJ & AT & CH). destruct (At_has _ _ _ _ _ AT) as (c & Hc). rewrite (get_ver_ok _ _ _ Hc) in H. cbn [lift] in H.
    destruct (N.eqb_spec vx (c_ver c)) as [V|V]; cbn [negb] in H; [|apply go_inv in H as (_ & ->); exact Logic.I].
    destruct X as [X|X]; [exfalso; exact (no_gone _ _ _ _ Hc (eq_sym V) (gone_coarse _ _ X))|].
    destruct next as [[y|l]|]; [| |contradiction]; apply go_inv in H as (_ & ->); exact Logic.I.
  - (* FLeaf *)
    destruct T as (F & NP & JJ & AT & CH). destruct (At_has _ _ _ _ _ AT) as (c & Hc). rewrite (get_ver_ok _ _ _ Hc) in H. cbn [lift] in H.
    destruct (N.eqb_spec vx (c_ver c)) as [V|V]; cbn [negb] in H; [|apply go_inv in H as (_ & ->); exact Logic.I].
    destruct (proj2 AT c Hc (eq_sym V)) as (a & k & w & Ha & -> & HO). pose proof (k_live_cell _ _ _ _ _ _ K Ha Hc) as R.
    destruct (nr_keys _ _ _ R _ _ HO) as (F1 & F2 & _). rewrite leaf_key_newLeaf in H by auto. cbn [lift] in H. apply go_inv in H as (_ & ->). exact Logic.I.
  - (* FNext *)
    destruct T as (F & NP & JJ & Y0 & (c & Hc) & CH & b & W & DP).
    pose proof (rlock_inv cm o _ _ _ m2 p' c Hc (li_mod _ _ LI0 _ _ Hc) H) as (_ & [(U & ->)| ->]); [|exact Logic.I].
    pose proof (li_live _ _ LI0 _ _ Hc Y0 U) as HA. destruct (A x) as [a|] eqn:Ha; [|contradiction]. cbn [XI]. eapply fine_live; eauto.
    destruct (DP a Ha) as (t0 & ->). discriminate.
  - (* IPar *)
    destruct T as (F & _). destruct (VC _ _ _ _ _ (PAR _ _ F) H) as [->| ->]; [|exact Logic.I]. destruct np; exact Logic.I.
  - (* DLeaf *) destruct T as (_ & _ & (k & ->) & _). destruct ND.
  - (* DBug *) destruct T as (F & _). destruct (VC _ _ _ _ _ (CUR _ _ F) H) as [->| ->]; exact Logic.I.
  - (* LPar *) destruct T as (F & _). destruct (CS _ _ _ _ _ (PAR _ _ F) H) as [->| ->]; exact Logic.I.
  - (* LCur2 *) destruct T as (F & _). destruct (CS _ _ _ _ _ (CUR _ _ F) H) as [->| ->]; exact Logic.I.
  - (* LCur1 *) destruct T as (F & _). destruct (CS _ _ _ _ _ (CUR _ _ F) H) as [->| ->]; [|exact Logic.I]. destruct (checks mu); exact Logic.I.
  - (* LChk *) destruct T as (F & _). destruct (VC _ _ _ _ _ (PAR _ _ F) H) as [->| ->]; exact Logic.I.
  - (* PUnlock *) destruct T as (VO & FH). destruct us as [|(a & obs) us].
    + apply go_inv in H as (_ & ->). destruct done; exact Logic.I.
    + cbn [map fst] in FH. inversion FH as [|? ? (c & Hc) _]; subst. unfold vunlock in H. rewrite (get_ver_ok _ _ _ Hc) in H. cbn [lift] in H.
      injection H as _ <-. exact Logic.I.
Qed.

(** The end of a group of reads *)
Lemma read_XI p a v c nd p' : s_thr cs t = p -> reads p = Some (a, v) -> nodel p -> XI fm p -> cell_at cm a = Some c -> (v <= c_ver c)%N ->
  shape (n_type (c_node c)) nd -> (c_ver c = v -> nd = c_node c) -> tstep true nd cm p = SGo cm p' ->
  (guarded p = true -> exists cf, cell_at fm a = Some cf /\ XR a (n_plen (c_node cf)) p') -> XI fm p'.
Proof.
  intros EP R ND X Hc LE SH EN H GD. pose proof (g_thr _ _ _ _ _ G t) as T. rewrite EP in T. fold cm in T.
  assert (NF : forall o f v0 x vx next, p' = FVal o f v0 x vx next -> guarded p = true -> Gone fm x vx \/ next <> None).
  { intros o f v0 x vx next -> GP. destruct p; try discriminate GP; cbn [reads tstep TI] in *.
    - apply go_inv in H as (_ & H). destruct (Nat.leb _ _); discriminate.
    - apply lift_inv in H as [(q & _ & H)|(_ & _ & H)]; [apply go_inv in H as (_ & H)|]; discriminate.
    - injection R as -> ->. destruct (n_pleaf nd) as [l|] eqn:EL; [apply go_inv in H as (_ & H); discriminate|].
      apply lift_inv in H as [(q & EF & H)|(_ & _ & H)]; [apply go_inv in H as (_ & H)|discriminate]. injection H as -> -> -> -> -> ->.
      destruct (N.eq_dec (c_ver c) v) as [V|V]; [right|left; apply gone_fine; exists c; split; auto; lia].
      destruct T as (F & NP & JJ & AT & CH). destruct (proj2 AT c Hc V) as (a0 & Ha & N). pose proof (k_live_cell _ _ _ _ _ _ K Ha Hc) as RR.
      destruct (firstChild_spec (c_node c) (nr_layout _ _ _ RR)) as (b & p & E2 & _); [eapply long_live; eauto|].
      rewrite (EN V) in EF. rewrite EF in E2. apply Ok_inj in E2. rewrite E2. discriminate.
    - apply lift_inv in H as [(q & _ & H)|(_ & _ & H)]; [apply go_inv in H as (_ & H)|]; discriminate.
    - apply go_inv in H as (_ & H). destruct (Nat.eqb _ _); discriminate.
    - destruct (Nat.eqb _ _); [apply go_inv in H as (_ & H); discriminate|]. destruct (Nat.ltb _ _); [apply go_inv in H as (_ & H); discriminate|].
      unfold crash in H. injection H as H. discriminate. }
  destruct (guarded p) eqn:GP.
  - destruct (GD eq_refl) as (cf & Hf & XX). destruct p'; cbn [XI XR] in *; auto; try contradiction.
    + destruct XX as (-> & L). exists cf. auto.
    + eapply NF; eauto.
    + destruct XX as (-> & L). exists cf. auto.
  - assert (BY : forall o f d, FI cm r A (S t) o f -> d < length (op_key o) -> exists b, idx (op_key o) d = Ok b /\ exists x, findChild nd b = Ok x).
    { intros o f d F L. destruct (nth_error (op_key o) d) as [b|] eqn:Eb; [|apply nth_error_None in Eb; lia]. exists b. split; [now apply idx_err|].
      eapply find_shape; eauto. eapply valid_byte; eauto. exact (fi_valid _ _ _ _ _ _ F). }
    destruct p; try discriminate R; try discriminate GP; cbn [TI XI tstep] in *.
    + apply go_inv in H as (_ & ->). destruct (Nat.eqb _ _); exact Logic.I.
    + destruct (rest_total nd (op_key o) (f_depth f)) as (d & ok & E1 & D). rewrite E1 in H. cbn [lift] in H. apply go_inv in H as (_ & ->). destruct ok; exact Logic.I.
    + destruct T as (F & NP & D & JJ). destruct (Nat.eqb_spec d (length (op_key o))) as [ED|ED].
      * destruct o as [k w|k|k]; [discriminate NP| |destruct ND]. apply go_inv in H as (_ & ->). exact Logic.I.
      * rewrite (proj2 (Nat.ltb_lt _ _)) in H by lia. destruct (BY o f d F ltac:(lia)) as (b & E1 & ((nx & sl) & ps) & E2).
        rewrite E1 in H. cbn [lift] in H. rewrite E2 in H. cbn [lift] in H. apply go_inv in H as (_ & ->). exact Logic.I.
    + destruct T as (F & NP & D & JJ). destruct (BY o f d F X) as (b & E1 & ((nx & sl) & ps) & E2).
      rewrite E1 in H. cbn [lift] in H. rewrite E2 in H. cbn [lift] in H. apply go_inv in H as (_ & ->). exact Logic.I.
    + destruct T as (F & NP & JJ). cbn [reads] in R. injection R as R1 R2. rewrite <- R1 in Hc. assert (NT0 : n_type nd <> Dummy).
      { rewrite (shape_type _ _ SH). intros Z. apply (k_type _ _ _ K _ _ Hc) in Z. exact (fi_cur _ _ _ _ _ _ F Z). }
      unfold isFull in H. destruct (n_type nd); cbn [lift] in H; try (apply go_inv in H as (_ & ->); try (destruct (Nat.eqb _ _)); exact Logic.I). contradiction.
    + destruct T as (_ & _ & (k & ->) & _). destruct ND.
    + destruct T as (_ & _ & (k & ->) & _). destruct ND.
Qed.

Theorem nt_step first m' x' : nodel (pc_of (fs_thr s t)) -> NT fm (fs_thr s t) -> fgo first fm (fs_thr s t) = Some (m', x') -> mmono fm m' /\ NT m' x'.
Proof.
  intros ND X H. pose proof (sm_thr _ _ SM t) as EP. pose proof (sm_rel _ _ SM t) as RL. pose proof (g_thr _ _ _ _ _ G t) as T. fold cm in T.
  destruct (fs_thr s t) as [p|p a rr|p ws fn|l c p] eqn:ET; cbn [pc_of NT rel] in *; rewrite EP in T.
  - destruct (reads p) as [(a, v)|] eqn:R; [|destruct (plain p) eqn:PL].
    + cbn [fgo] in H. rewrite R in H. destruct (reads_past _ _ _ _ _ _ _ T R) as ((U & c & Hc & LE) & PO).
      destruct (fine_cell s cs SM a c Hc) as (cf & Hf & V & TY & SH). fold fm in Hf. rewrite (get_node_ok _ _ _ Hf) in H. cbn [tri] in H. injection H as <- <-.
      split; [apply mmono_refl|]. cbn [NT]. split; auto. intros GP. exists cf. split; auto. eapply rprog_souts; eauto; [now rewrite TY|].
      destruct p; try exact Logic.I; cbn [TI] in T; exact (fi_depth _ _ _ _ _ _ (proj1 T)).
    + assert (H' : match tstep first newNode4 fm p with SGo m' p' => Some (m', TAt p') | SBlock => None end = Some (m', x')).
      { rewrite <- H. cbn [fgo]. rewrite R. destruct p; try discriminate PL; reflexivity. }
      pose proof (tstep_ver first newNode4 fm cm p PL (sm_root _ _ SM) (get_ver_eq _ _ SM)) as Y.
      destruct (tstep first newNode4 fm p) as [|m1 p1] eqn:E1; [discriminate|]. injection H' as <- <-.
      destruct (tstep first newNode4 cm p) as [|m2 p2] eqn:E2; [contradiction|]. destruct Y as (<- & Y).
      pose proof (plain_XI _ _ _ _ _ EP PL ND X E2) as XP.
      assert (M : mmono fm m1).
      { destruct Y as [(-> & ->)|(a & w & -> & ->)]; [apply mmono_refl|].
        assert (RD : reads_ok (s_mem cs) (s_thr cs t) newNode4) by (unfold reads_ok; now rewrite EP, R).
        assert (ST : tstep first newNode4 (s_mem cs) (s_thr cs t) = SGo (set_ver cm a w) p1) by (now rewrite EP).
        destruct (coarse_step _ _ _ _ _ _ _ E RD ST) as (_ & r1 & A1 & r' & A' & _ & EV).
        assert (NS : Datatypes.S t <> t) by lia. specialize (EV _ NS). intros n x Hx. destruct (cell_at fm a) as [ca|] eqn:Hca.
        - rewrite (cell_set_ver _ _ _ _ _ Hca). destruct (Nat.eqb_spec a n) as [<-|]; [|exists x; split; auto; split; [lia|apply nmono_refl]].
          assert (ca = x) by congruence. subst ca. eexists. split; [reflexivity|]. cbn [c_ver c_node]. split; [|apply nmono_refl].
          destruct (sm_cell _ _ SM a x Hx) as (cc & Hcc & V & _). destruct (e_cell _ _ _ _ _ _ _ EV a cc Hcc) as (c' & Hc' & LE & _).
          fold cm in Hcc. fold cm in Hc'. rewrite (cell_set_ver _ _ _ _ _ Hcc), Nat.eqb_refl in Hc'. injection Hc' as <-. cbn [c_ver] in LE. now rewrite <- V.
        - unfold set_ver. unfold cell_at in Hca. rewrite Hca. exists x. split; auto. split; [lia|apply nmono_refl]. }
      split; auto. cbn [NT]. eapply XI_mono; eauto.
    + destruct p; try discriminate PL; try discriminate R; [|contradiction].
      cbn [TI] in T. destruct T as (F & OW & OP). destruct OW as (U & c & Hc & V & MF). pose proof MF as (a & Ha & MF2).
      assert (CL : child_lock (c_node c) mu (op_key o) = Ok None).
      { unfold child_lock. destruct o as [k w|k|k]; [|destruct MF2|destruct ND]. destruct mu; try contradiction; reflexivity. }
      assert (NC : nochild (s_mem cs) (s_thr cs t)) by (rewrite EP; cbn [nochild]; eauto).
      destruct (plan_ok hc cs t E NC) as (ws & fn & m1 & p1 & PLN). rewrite EP in PLN. pose proof (pl_prog _ _ _ _ _ _ PLN) as PR. cbn [prog] in PR. fold cm in PR.
      assert (Hf : cell_at fm (f_cur f) = Some c).
      { rewrite <- Hc. apply (clean_own hc _ _ SM E t); [now rewrite ET|]. rewrite EP. cbn [held]. destruct (two mu); left; reflexivity. }
      assert (PF : wprog fm o f mu = Ok (ws, fn)). { rewrite <- PR. unfold wprog. now rewrite (get_node_ok _ _ _ Hf), (get_node_ok _ _ _ Hc). }
      cbn [fgo reads] in H. rewrite (get_node_ok _ _ _ Hf) in H. cbn [bind] in H. rewrite CL in H. cbn [tri] in H. rewrite PF in H. cbn [tri] in H.
      injection H as <- <-. split; [apply mmono_refl|exact Logic.I].
  - destruct X as (X & SO). destruct RL as (v & c & R & Hc & U & LE & PO & O & EVL). fold cm in Hc, PO, O, EVL.
    destruct (fine_cell s cs SM a c Hc) as (cf & Hf & V & TY & SH). fold fm in Hf.
    assert (D : (exists p', rr = RDone p') \/ (fgo first fm (TRd p a rr) = tri p fm (get_node fm a) (fun n => Some (fm, TRd p a (rstep n rr))) /\ forall q, rr <> RDone q)).
    { destruct rr; eauto; right; split; try reflexivity; discriminate. }
    destruct D as [(p' & ->)|(D & _)].
    + cbn [fgo] in H. injection H as <- <-. split; [apply mmono_refl|]. cbn [NT].
      assert (Y : exists nd, shape (n_type (c_node c)) nd /\ (c_ver c = v -> nd = c_node c) /\ to (ptype cm p) p nd p').
      { destruct (N.eq_dec (c_ver c) v) as [VE|VE].
        - exists (c_node c). split; [|split; [auto|exact (EVL VE)]]. pose proof (clean_unl _ _ _ SM E a c Hc ltac:(now rewrite VE)) as Z. fold fm in Z. assert (cf = c) by congruence. subst cf. exact SH.
        - destruct (outs_fin _ _ _ _ SH O) as (nd & S1 & S2). exists nd. split; auto. split; auto. congruence. }
      destruct Y as (nd & S1 & S2 & TT). eapply read_XI; eauto.
      intros GP. exists cf. split; auto. specialize (SO GP). apply (at_cell _ _ _ _ Hf) in SO. cbv beta in SO. eapply souts_fin; [|exact SO]. now rewrite TY.
    + rewrite D, (get_node_ok _ _ _ Hf) in H. cbn [tri] in H. injection H as <- <-. split; [apply mmono_refl|]. cbn [NT]. split; auto.
      intros GP. specialize (SO GP). apply (at_cell _ _ _ _ Hf) in SO. cbv beta in SO. exists cf. split; auto. apply souts_step; auto. now rewrite TY.
  - destruct p; try contradiction. cbn [TI] in T. destruct T as (F & OW & OP). destruct OW as (U & c & Hc & V & MF). pose proof MF as (a0 & Ha & MF2).
    destruct o as [k w0|k|k]; [|destruct MF2|destruct ND].
    destruct ws as [|(a, w) ws].
    + destruct (leave_facts hc s cs SM E t _ _ ET) as (ws & m1 & p1 & _ & PL & AG & OU).
      destruct (run_both (held (PWrite (OPut k w0) f v mu)) (fs_mem s) (awrs (s_mem cs) ws) fn m1) as (fm1 & RF & _).
      { rewrite mlen_awrs. apply (sm_len _ _ SM). } { exact AG. } { rewrite root_awrs. apply (sm_root _ _ SM). }
      { exact (pl_loc _ _ _ _ _ _ PL). } { exact (pl_run _ _ _ _ _ _ PL). }
      pose proof (pl_kind _ _ _ _ _ _ PL) as (NU & _). fold fm in RF.
      destruct fn as [|l q|l nn|c0 l]; cbn [fgo run_fin] in *; try (rewrite RF in H; cbn [tri] in H); try (injection H as <- <-; split; [|exact Logic.I]).
      * apply mmono_refl.
      * eapply mmono_store; eauto.
      * eapply mmono_place; eauto.
      * destruct (NU c0 l eq_refl).
    + destruct RL as (NC & dn & PR & W & B). fold cm in NC, PR, W, B. fold fm in B. cbn [prog] in PR.
      destruct (put_ws _ _ _ _ _ _ _ _ _ _ _ PR (get_node_ok _ _ _ Hc)) as (-> & WG).
      destruct (W _ (or_introl eq_refl)) as (HI & _). cbn [fst] in HI. destruct (B _ HI) as (c1 & cf & Hc1 & Hf & EN). assert (c1 = c) by congruence. subst c1.
      cbn [fgo] in H. rewrite (get_node_ok _ _ _ Hf) in H. cbn [bind] in H. rewrite (put_node_ok _ _ _ _ Hf) in H. cbn [tri] in H. injection H as <- <-.
      split; [|exact Logic.I]. apply mmono_put; auto. apply wr_mono. destruct w; cbn [wgrow]; auto. destruct WG as (-> & L). cbn in EN. now rewrite EN.
  - contradiction.
Qed.
End Thread.
End NStep.

(** ** All steps *)
Lemma tau_op hc cs t cs' : exec hc cs -> step cs (ETau t) cs' -> forall u, pc_op (s_thr cs' u) = pc_op (s_thr cs u).
Proof.
  intros E ST u. inversion ST as [| |t0 first nd m' p' RD TS]; subst. cbn [s_thr]. destruct (Nat.eq_dec u t) as [->|N]; [|now rewrite upd_ne].
  rewrite upd_eq. destruct (GI_exec hc cs E) as (r & A & S & G).
  destruct (tstep_ok (s_mem cs) r A (g_rep _ _ _ _ _ G) (LK_LI _ _ _ (g_lk _ _ _ _ _ G)) (S t) (s_thr cs t) (g_thr _ _ _ _ _ G t)
       (fun o x => g_seen _ _ _ _ _ G t o x) first nd m' p' RD TS) as (r' & A' & _ & _ & _ & PO & _). exact PO.
Qed.
Lemma taus_op t cs l cs' : steps cs l cs' -> Forall (fun e => e = ETau t) l -> forall hc, exec hc cs -> forall u, pc_op (s_thr cs' u) = pc_op (s_thr cs u).
Proof.
  intros H. induction H as [|s e s1 l s2 ST _ IH]; intros F hc E u; auto. inversion F; subst.
  rewrite (IH ltac:(assumption) (hc ++ [ETau t])); [|econstructor; eauto]. eapply tau_op; eauto.
Qed.

(** What a goroutine that is not in a Put knows does not depend on the memory. *)
Lemma NT_any m m' cm r A S x : TI cm r A S (pc_of x) -> (forall k v, pc_op (pc_of x) <> Some (OPut k v)) -> NT m x -> NT m' x.
Proof.
  assert (IP : forall o, isput o = true -> exists k v, o = OPut k v) by (intros o H; destruct o; try discriminate; eauto).
  assert (PX : forall p, TI cm r A S p -> (forall k v, pc_op p <> Some (OPut k v)) -> guarded p = false /\ (XI m p -> XI m' p)).
  { intros p T N. destruct p; cbn [TI XI pc_op guarded] in *; auto;
      try (exfalso; destruct T as (_ & NP & _); destruct (IP _ NP) as (? & ? & ->); eapply N; reflexivity). }
  intros T N. destruct x as [p|p a q|p ws fn|l c p]; cbn [NT pc_of] in *; auto.
  - apply PX; auto.
  - destruct (PX p T N) as (G & X). rewrite G. intros (X0 & _). split; auto. discriminate.
Qed.

Lemma running_app h l t o : running h t o -> (forall x, ~ In (ERet t x) l) -> running (h ++ l) t o.
Proof. intros (h1 & h2 & -> & N) M. exists h1, (h2 ++ l). split; [now rewrite <- app_assoc|]. intros x X. apply in_app_or in X as [X|X]; [eapply N|eapply M]; eauto. Qed.
Lemma apart_app h l : apart (h ++ l) -> apart h.
Proof. intros A h1 h2 t k v u k' -> R1 R2. eapply (A h1 (h2 ++ l)); eauto. now rewrite app_assoc. Qed.

Record ND (h : list ev) (s : fsys) (cs : sys) : Prop := {
  nd_sim : Sim s cs;
  nd_exec : exists hc, exec hc cs;
  nd_run : forall t o, pc_op (pc_of (fs_thr s t)) = Some o -> running h t o;
  nd_nt : forall t, nodel (pc_of (fs_thr s t)) -> NT (fs_mem s) (fs_thr s t)
}.

Theorem ND_step h s cs e s' : apart (h ++ [e]) -> ND h s cs -> fstep s e s' -> exists cs', ND (h ++ [e]) s' cs'.
Proof.
  intros AP [SM (hc & E) RUN NTS] ST.
  destruct ST as [t o ET VO|t o x ET|t first m' x' H].
  - pose proof (sm_thr _ _ SM t) as EP. rewrite ET in EP. cbn [pc_of] in EP. exists (mkSys (s_mem cs) (upd_thr (s_thr cs) t (PStart o))). constructor.
    + apply (pure_move _ _ SM). now rewrite ET.
    + eexists. econstructor; [exact E|]. now apply step_call.
    + cbn [fs_thr]. intros u o' X. destruct (Nat.eq_dec u t) as [->|N].
      * rewrite fupd_eq in X. cbn in X. injection X as <-. exists h, []. split; auto.
      * rewrite fupd_ne in X by auto. apply running_app; auto. intros y [Y|[]]. discriminate.
    + cbn [fs_thr fs_mem]. intros u X. destruct (Nat.eq_dec u t) as [->|N]; [rewrite fupd_eq in *; exact Logic.I|].
      rewrite fupd_ne in * by auto. auto.
  - pose proof (sm_thr _ _ SM t) as EP. rewrite ET in EP. cbn [pc_of] in EP. exists (mkSys (s_mem cs) (upd_thr (s_thr cs) t PIdle)). constructor.
    + apply (pure_move _ _ SM). now rewrite ET.
    + eexists. econstructor; [exact E|]. eapply step_ret; eauto.
    + cbn [fs_thr]. intros u o' X. destruct (Nat.eq_dec u t) as [->|N]; [rewrite fupd_eq in X; discriminate|].
      rewrite fupd_ne in X by auto. apply running_app; auto. intros y [Y|[]]. congruence.
    + cbn [fs_thr fs_mem]. intros u X. destruct (Nat.eq_dec u t) as [->|N]; [rewrite fupd_eq in *; exact Logic.I|].
      rewrite fupd_ne in * by auto. auto.
  - destruct (sim_tau hc s cs SM E t first m' x' H) as (l & cs' & STS & FA & SM' & _). exists cs'.
    assert (OP : forall u, pc_op (pc_of (fupd (fs_thr s) t x' u)) = pc_op (pc_of (fs_thr s u))).
    { intros u. rewrite <- (sm_thr _ _ SM u). pose proof (sm_thr _ _ SM' u) as Y. cbn [fs_thr] in Y. rewrite <- Y. eapply taus_op; eauto. }
    constructor; auto.
    + exists (hc ++ l). eapply steps_exec; eauto.
    + cbn [fs_thr]. intros u o X. rewrite OP in X. apply running_app; auto. intros y [Y|[]]. discriminate.
    + cbn [fs_thr fs_mem]. intros u X. unfold nodel in X. rewrite OP in X. fold (nodel (pc_of (fs_thr s u))) in X.
      destruct (GI_exec hc cs E) as (r & A & S & G).
      assert (DEC : nodel (pc_of (fs_thr s t)) \/ exists k, pc_op (pc_of (fs_thr s t)) = Some (ODelete k)).
      { unfold nodel. destruct (pc_op (pc_of (fs_thr s t))) as [[]|]; eauto. }
      destruct DEC as [NT0|(k & DL)].
      * destruct (nt_step hc s cs SM E r A S G t first m' x' NT0 (NTS t NT0) H) as (M & NX).
        destruct (Nat.eq_dec u t) as [->|N]; [now rewrite fupd_eq|]. rewrite fupd_ne by auto. eapply NT_mono; eauto.
      * destruct (Nat.eq_dec u t) as [->|N]; [unfold nodel in X; rewrite DL in X; contradiction|]. rewrite fupd_ne by auto.
        eapply NT_any; [|intros k0 v0 PU|exact (NTS u X)].
        -- rewrite <- (sm_thr _ _ SM u). exact (g_thr _ _ _ _ _ G u).
        -- exact (AP h [ETau t] u k0 v0 t k eq_refl (RUN _ _ PU) (RUN _ _ DL)).
Qed.

Theorem ND_exec h s : fexec h s -> apart h -> exists cs, ND h s cs.
Proof.
  intros F. induction F as [|h s e s' F IH ST]; intros AP.
  - exists init. constructor.
    + apply sim_init.
    + exists []. constructor.
    + intros t o X. discriminate.
    + intros t _. exact Logic.I.
  - destruct (IH (apart_app _ _ AP)) as (cs & N). eapply ND_step; eauto.
Qed.

Theorem fine_apart_no_panic h s t o : fexec h s -> apart h -> fs_thr s t <> TAt (PCrash o).
Proof.
  intros F AP ET. destruct (ND_exec h s F AP) as (cs & [SM (hc & E) RUN NTS]). specialize (NTS t). rewrite ET in NTS. cbn [pc_of NT XI] in NTS. apply NTS.
  unfold nodel. cbn [pc_op]. destruct (GI_exec hc cs E) as (r & A & S & G). pose proof (g_thr _ _ _ _ _ G t) as T.
  rewrite (sm_thr _ _ SM t), ET in T. cbn [pc_of TI] in T. now destruct o.
Qed.
