(** * ArtConcStep: each step of a goroutine keeps what it knows true. *)
From Coq Require Import Permutation.
From Verif Require Import Base BitsModel BitsFacts VecModel VecProofs VecProofs2 ArtNode
  ArtNodeProofs ArtNodeProofs2 ArtNodeProofs3 ArtModel ArtSpec ArtTree ArtTree2 ArtRep ArtRep2
  ArtTree3 ArtSeq ArtMono ArtSeq2 ArtSeq3 ArtConc ArtConcHeap ArtConcInv.
Ltac Zify.zify_post_hook ::= Z.div_mod_to_equations.

Definition pc_op (p : pc) : option op :=
  match p with
  | PIdle => None
  | PCrash o | PRet o _ | PStart o | PRoot o _ | PDum o _ | PLock o _ | PPar o _ _ | PRead0 o _ _ | PRead1 o _ _
  | PRead2 o _ _ _ | PMiss o _ _ | PNext o _ _ _ _ _ _ | IMis o _ _ | IMis1 o _ _ | FChk o _ _ _ | FPar o _ _ _
  | FRd o _ _ _ _ | FVal o _ _ _ _ _ | FLeaf o _ _ _ _ _ | FNext o _ _ _ | IMis2 o _ _ _ | IPl o _ _ _ _ | IDep o _ _
  | IFind o _ _ _ | IFull o _ _ _ | IPar o _ _ _ _ _ | DLeaf o _ _ _ | DCmp o _ _ | DBug o _ _ | DShr o _ _ _ _
  | LPar o _ _ _ | LCur2 o _ _ _ | LCur1 o _ _ _ | LChk o _ _ _ | PWrite o _ _ _ | CWait o _ _ _ _ _ | CCas o _ _ _ _ _ _
  | CWrite o _ _ _ _ _ | PUnlock o _ _ => Some o
  end.
Definition committed (p : pc) : Prop := match p with PUnlock _ _ done => done = true | PRet _ _ => True | _ => False end.

(** The version words tell which nodes are in the tree. *)
Record LI (m : mem) (A : aheap) : Prop := {
  li_mod : forall n c, cell_at m n = Some c -> (c_ver c mod 4 = 0 \/ c_ver c mod 4 = 1 \/ c_ver c mod 4 = 2)%N;
  li_live : forall n c, cell_at m n = Some c -> n <> 0 -> unl (c_ver c) -> A n <> None;
  li_zero : forall c, cell_at m 0 = Some c -> (c_ver c mod 4 <> 1)%N
}.

(** A step that does not write the tree neither commits nor takes a commit back. *)
Definition cmt (p p' : pc) : Prop :=
  (committed p -> committed p') /\ (committed p' -> committed p \/ exists o x, p' = PRet o x).

(** What a step does to the memory and to the locks. *)
Inductive out (p : pc) (m : mem) (r : nat) (A : aheap) (p' : pc) : mem -> nat -> aheap -> Prop :=
  | out_pure : cmt p p' -> held p' = held p -> doomed p' = doomed p -> out p m r A p' m r A
  | out_lock n c : cmt p p' -> cell_at m n = Some c -> unl (c_ver c) -> Permutation (held p') (n :: held p) ->
      doomed p = [] -> doomed p' = [] -> out p m r A p' (set_ver m n (c_ver c + 2)) r A
  | out_unlock n (obs : bool) c : cmt p p' -> cell_at m n = Some c -> held p = n :: held p' ->
      doomed p = (if obs then n :: doomed p' else doomed p') ->
      out p m r A p' (set_ver m n (c_ver c + (if obs then 3 else 2))) r A
  | out_commit o m' r' A' : pc_op p = Some o -> ~ committed p -> committed p' -> effect o A A' -> fr (held p) (doomed p') m r A m' r' A' ->
      held p' = held p -> doomed p = [] -> (forall n, In n (doomed p') -> In n (held p) /\ n <> 0 /\ A' n = None) ->
      (exists us, p' = PUnlock o us true) -> r' = r \/ In 0 (held p) ->
      out p m r A p' m' r' A'.

Lemma J_gone m A o f v (P Q : fact) : J m A o f v P -> isput o = true -> Gone m (f_par f) (f_pv f) -> J m A o f v Q.
Proof. intros (X & _) H1 H2. split; auto. Qed.
Lemma J_now m A o f v P c : J m A o f v P -> cell_at m (f_cur f) = Some c -> c_ver c = v ->
  (isput o = true /\ Gone m (f_par f) (f_pv f)) \/ P (c_node c) (A (f_cur f)).
Proof. intros (X & [Y|Y]) Hc V; auto. Qed.
Lemma J_mk m A o f v (P Q : fact) : J m A o f v P ->
  (forall c, cell_at m (f_cur f) = Some c -> c_ver c = v -> P (c_node c) (A (f_cur f)) -> Q (c_node c) (A (f_cur f))) ->
  J m A o f v Q.
Proof. intros (X & [Y|Y]) H; split; auto. Qed.
Lemma J_read m A o f v P nd : J m A o f v P -> sees m (f_cur f) v nd ->
  (exists c, cell_at m (f_cur f) = Some c /\ c_ver c = v /\ nd = c_node c /\ P nd (A (f_cur f)) /\
     forall Q : fact, Q nd (A (f_cur f)) -> J m A o f v Q) \/
  ((forall Q, J m A o f v Q) /\
   (isput o = true \/ exists c, cell_at m (f_cur f) = Some c /\ shape (n_type (c_node c)) nd)).
Proof.
  intros (X & [Y|Y]) (c & Hc & S1 & S2).
  - right. split; [intros Q; split; auto|]. left. apply Y.
  - destruct (N.eq_dec (c_ver c) v) as [V|V].
    + left. exists c. rewrite (S1 V). split; auto. split; auto. split; auto. split; auto. intros Q HQ. split; auto. right.
      intros c' Hc' _. unfold cell_at in *. congruence.
    + right. split; [|right; exists c; auto]. intros Q. split; auto. right. intros c' Hc' V'. unfold cell_at in *. congruence.
Qed.
Lemma At_read m A n v P nd : At m A n v P -> sees m n v nd ->
  (exists c, cell_at m n = Some c /\ c_ver c = v /\ nd = c_node c /\ P nd (A n) /\
     forall Q : fact, Q nd (A n) -> At m A n v Q) \/
  (forall Q, At m A n v Q).
Proof.
  intros (X & Y) (c & Hc & S1 & S2). destruct (N.eq_dec (c_ver c) v) as [V|V].
  - left. exists c. rewrite (S1 V). split; auto. split; auto. split; auto. split; auto. intros Q HQ. split; auto.
    intros c' Hc' _. unfold cell_at in *. congruence.
  - right. intros Q. split; auto. intros c' Hc' V'. unfold cell_at in *. congruence.
Qed.
Lemma At_mk m A n v (P Q : fact) : At m A n v P ->
  (forall c, cell_at m n = Some c -> c_ver c = v -> P (c_node c) (A n) -> Q (c_node c) (A n)) -> At m A n v Q.
Proof. intros (X & Y) H. split; auto. Qed.
Lemma J_At m A o f v P : J m A o f v P -> ~ Gone m (f_par f) (f_pv f) -> At m A (f_cur f) v P.
Proof. intros (X & [(_ & Y)|Y]) H; [contradiction|]. split; auto. Qed.
Lemma J_At' m A o f v P : J m A o f v P -> isput o = false -> At m A (f_cur f) v P.
Proof. intros (X & [(E & _)|Y]) H; [congruence|]. split; auto. Qed.
Lemma At_J m A o f v P : At m A (f_cur f) v P -> J m A o f v P.
Proof. intros (X & Y). split; auto. Qed.
Lemma no_gone m n v c : cell_at m n = Some c -> c_ver c = v -> ~ Gone m n v.
Proof. intros Hc V (c' & Hc' & L). assert (c' = c) by congruence. subst. lia. Qed.

(** ** Inversion of the step combinators *)
Lemma lift_inv {X} m o (x : res X) k m' p' : lift m o x k = SGo m' p' ->
  (exists y, x = Ok y /\ k y = SGo m' p') \/ ((forall y, x <> Ok y) /\ m' = m /\ p' = PCrash o).
Proof.
  unfold lift, crash. destruct x; intros H; [left; eauto| |]; right; (split; [discriminate|]); inversion H; auto.
Qed.
Lemma go_inv m p m' p' : go m p = SGo m' p' -> m' = m /\ p' = p.
Proof. unfold go. intros H; inversion H; auto. Qed.
Lemma vcheck_inv m o a v ok bad m' p' c : cell_at m a = Some c -> vcheck m o a v ok bad = SGo m' p' ->
  m' = m /\ ((c_ver c = v /\ p' = ok) \/ (c_ver c <> v /\ p' = bad)).
Proof.
  intros Hc. unfold vcheck. rewrite (get_ver_ok m a c Hc). cbn [lift]. intros H. apply go_inv in H as (-> & ->). split; auto.
  destruct (N.eqb_spec v (c_ver c)); auto.
Qed.
Lemma rlock_inv m o a ok bad m' p' c : cell_at m a = Some c ->
  (c_ver c mod 4 = 0 \/ c_ver c mod 4 = 1 \/ c_ver c mod 4 = 2)%N -> rlock m o a ok bad = SGo m' p' ->
  m' = m /\ ((unl (c_ver c) /\ p' = ok (c_ver c)) \/ p' = bad).
Proof.
  intros Hc M. unfold rlock. rewrite (get_ver_ok m a c Hc). cbn [lift].
  destruct (locked (c_ver c)) eqn:E1; [discriminate|]. destruct (obsolete (c_ver c)) eqn:E2; intros H; apply go_inv in H as (-> & ->); auto.
  split; auto. left. split; auto. now apply unlocked_live.
Qed.
Lemma vcas_inv m o a v ok bad m' p' c : cell_at m a = Some c -> vcas m o a v ok bad = SGo m' p' ->
  (c_ver c = v /\ m' = set_ver m a (v + 2) /\ p' = ok) \/ (c_ver c <> v /\ m' = m /\ p' = bad).
Proof.
  intros Hc. unfold vcas. rewrite (get_ver_ok m a c Hc). cbn [lift]. destruct (N.eqb_spec (c_ver c) v) as [E|E]; intros H.
  - inversion H. auto.
  - apply go_inv in H as (-> & ->). auto.
Qed.

(** ** Pure facts *)
Lemma find4_loop_shape n key f : forall i, i + f <= length (n_keys n) ->
  exists x, find4_loop n key f i = Ok x /\ forall j, x = Some j -> j < i + f.
Proof.
  induction f as [|f IH]; intros i Hi; cbn [find4_loop]; [exists None; split; [auto|discriminate]|].
  rewrite (idx_in _ i 0) by lia. cbn [bind]. destruct (Nat.eqb _ key).
  - exists (Some i). split; auto. intros j X; inversion X; lia.
  - destruct (IH (i + 1)) as (x & E & H); [lia|]. exists x. split; auto. intros j X. specialize (H j X). lia.
Qed.
Lemma indexByte_lt l k i : indexByte l k = Some i -> i < length l.
Proof.
  revert i. induction l as [|x l IH]; intros i; cbn; [discriminate|]. destruct (Nat.eqb x k); [intros H; inversion H; lia|].
  destruct (indexByte l k); cbn; [|discriminate]. intros H; inversion H; subst. specialize (IH n eq_refl). lia.
Qed.
Lemma find_shape t nd b : shape t nd -> b < 256 -> exists x, findChild nd b = Ok x.
Proof.
  intros (E & _ & H) Hb. unfold findChild. rewrite E. destruct t.
  - destruct H as (H1 & H2 & H3). destruct (find4_loop_shape nd b (n_num nd) 0) as (x & -> & Hx); [lia|]. cbn [bind].
    destruct x as [i|]; [|eauto]. specialize (Hx i eq_refl). rewrite (idx_in _ i None) by lia. cbn [bind]. eauto.
  - destruct H as (H1 & H2 & H3). destruct (indexByte (n_keys nd) b) as [i|] eqn:Ei; [|eauto].
    apply indexByte_lt in Ei. destruct (Nat.ltb i (n_num nd)); [|eauto]. rewrite (idx_in _ i None) by lia. cbn [bind]. eauto.
  - destruct H as (H1 & H2 & H3 & H4). rewrite (idx_in _ b 0) by lia. cbn [bind]. destruct (Nat.ltb_spec 0 (nth b (n_index nd) 0)) as [L|L]; [|eauto].
    assert (nth b (n_index nd) 0 <= 48). { rewrite Forall_forall in H3. apply H3. apply nth_In. lia. }
    rewrite (idx_in _ _ None) by lia. cbn [bind]. eauto.
  - destruct H as (H1 & H2). rewrite (idx_in _ b None) by lia. cbn [bind]. eauto.
  - eauto.
Qed.
Lemma shrink_shape t nd pt : shape t nd -> t <> Dummy -> exists b, shouldShrink nd pt = Ok b.
Proof.
  intros (E & _ & H) Hb. unfold shouldShrink. rewrite E. destruct t; eauto; [|congruence].
  destruct (ntype_eqb pt Dummy); eauto. destruct (n_pleaf nd); eauto.
Qed.
Lemma rest_total nd key depth : exists d ok, checkPrefix_rest nd key depth = Ok (d, ok) /\ (ok = true -> d <= length key).
Proof.
  unfold checkPrefix_rest. destruct (Nat.ltb_spec (length key) (depth + n_plen nd)) as [H|H].
  - exists 0, false. split; auto. lia.
  - rewrite slice_ok by lia. cbn [bind]. rewrite copy_pad8. cbn [bind]. eexists _, _. split; [reflexivity|]. lia.
Qed.
Lemma rest_spec root nd a key depth d ok : nrep root nd a -> depth + aPL a = length (aW a) ->
  checkPrefix_rest nd key depth = Ok (d, ok) ->
  (ok = true -> d = length (aW a)) /\ (ok = false -> ~ is_prefix (aW a) key).
Proof.
  intros R Hd. unfold checkPrefix_rest. rewrite (nr_plen _ _ _ R), (nr_prefix _ _ _ R), Hd.
  destruct (Nat.ltb_spec (length key) (length (aW a))) as [H|H].
  - intros E; apply Ok_inj in E; inversion E; subst. split; [discriminate|]. intros _ P. apply is_prefix_length in P. lia.
  - rewrite slice_ok by lia. cbn [bind]. rewrite copy_pad8. cbn [bind]. intros E; apply Ok_inj in E. inversion E; subst d ok.
    split; [auto|]. intros F P. apply beqb_neq in F. apply F. unfold stored. f_equal.
    replace (length (aW a) - depth) with (aPL a) by lia. replace depth with (length (aW a) - aPL a) by lia. apply path_slice; auto.
    apply (nr_pl _ _ _ R).
Qed.

Section Tree.
Context (r : nat) (A : aheap) (I : AInv r A).

(** Off the path: the node's own prefix does not match the key. *)
Lemma absent_path n a depth k : A n = Some a -> depth + aPL a = length (aW a) ->
  is_prefix (firstn depth (aW a)) k -> ~ is_prefix (aW a) k -> absent A k.
Proof.
  intros Ha Hd HP HN v HC. apply HN. destruct (Nat.eq_dec n r) as [->|Hr].
  - destruct (ai_root r A I) as (ar & Hr & E & _). assert (ar = a) by congruence. subst. rewrite E. now exists k.
  - destruct (ai_parent r A I n a Ha Hr) as (p & ap & b & Hp & Hb).
    destruct (ai_node r A I _ _ _ _ Hp Hb) as (a' & Ha' & P & L). assert (a' = a) by congruence. subst a'.
    assert (depth = length (aW ap ++ [b])) by (rewrite app_length; cbn; lia). subst depth.
    apply is_prefix_firstn in P. rewrite P in HP. apply is_prefix_snoc in HP as (P1 & P2).
    eapply (contents_path_prefix r A I k v n a); auto.
    eapply apath_step; [exact (live_apath r A I k p ap Hp P1)|]. apply anext_Some. exists ap, b. auto.
Qed.

Lemma val_at n a k : A n = Some a -> is_prefix (aW a) k -> anext A k n = None -> val A k (alookup a k).
Proof.
  intros Ha HP HN. pose proof (live_apath r A I k n a Ha HP) as HA.
  assert (LH : forall v, holds a k v <-> alookup a k = Some v).
  { intros. eapply (local_holds r A I); eauto. now apply is_prefix_length. }
  destruct (alookup a k) as [v|] eqn:E; cbn.
  - rewrite (contents_at r A I k n a v HA HN Ha). now apply LH.
  - intros v. rewrite (contents_at r A I k n a v HA HN Ha), LH. discriminate.
Qed.
End Tree.

Lemma firstn_app_prefix (W : bytes) W' : is_prefix W W' -> firstn (length W) W' = W.
Proof. apply is_prefix_firstn. Qed.

Lemma is_prefix_dec (a b : bytes) : {is_prefix a b} + {~ is_prefix a b}.
Proof.
  destruct (list_eq_dec Nat.eq_dec (firstn (length a) b) a) as [E|E].
  - left. now apply is_prefix_firstn.
  - right. intros H. apply E. now apply is_prefix_firstn.
Qed.
