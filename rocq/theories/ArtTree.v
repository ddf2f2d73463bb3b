(** * ArtTree: the abstract tree behind the ART heap and the surgeries on it.

    Specification level.  Every live inner node has its full path [aW] (the bytes
    shared by all keys below it, including the node's own compressed prefix of length
    [aPL]), possibly a value for the key equal to the path, and a partial map from
    bytes to children. *)
From Verif Require Import Base.

Inductive aptr := AL (k v : bytes) | AN (m : nat).
Record anode := mkA { aW : bytes; aPL : nat; aLeaf : option bytes; aCh : nat -> option aptr }.
Definition aheap := nat -> option anode.

Definition aset (A : aheap) (n : nat) (x : option anode) : aheap :=
  fun i => if Nat.eqb i n then x else A i.
Definition cset (f : nat -> option aptr) (b : nat) (x : option aptr) : nat -> option aptr :=
  fun i => if Nat.eqb i b then x else f i.

Lemma aset_eq A n x : aset A n x n = x.
Proof. unfold aset. now rewrite Nat.eqb_refl. Qed.
Lemma aset_ne A n x i : i <> n -> aset A n x i = A i.
Proof. unfold aset. intros. destruct (Nat.eqb_spec i n); [congruence|auto]. Qed.
Lemma cset_eq f n x : cset f n x n = x.
Proof. unfold cset. now rewrite Nat.eqb_refl. Qed.
Lemma cset_ne f n x i : i <> n -> cset f n x i = f i.
Proof. unfold cset. intros. destruct (Nat.eqb_spec i n); [congruence|auto]. Qed.

Record AInv (r : nat) (A : aheap) : Prop := {
  ai_root : exists a, A r = Some a /\ aW a = [] /\ aPL a = 0;
  ai_leaf : forall n a b k v, A n = Some a -> aCh a b = Some (AL k v) -> is_prefix (aW a ++ [b]) k;
  ai_node : forall n a b m, A n = Some a -> aCh a b = Some (AN m) ->
    exists am, A m = Some am /\ is_prefix (aW a ++ [b]) (aW am) /\
      length (aW am) = length (aW a) + 1 + aPL am;
  ai_parent : forall m am, A m = Some am -> m <> r ->
    exists n a b, A n = Some a /\ aCh a b = Some (AN m)
}.

(** The key/value pairs stored at a node and in the whole tree. *)
Definition holds (a : anode) (k v : bytes) : Prop :=
  (k = aW a /\ aLeaf a = Some v) \/ (exists b, aCh a b = Some (AL k v)).
Definition contents (A : aheap) (k v : bytes) : Prop := exists n a, A n = Some a /\ holds a k v.

(** The descent for key [k]. *)
Definition anext (A : aheap) (k : bytes) (n : nat) : option nat :=
  match A n with
  | Some a => match nth_error k (length (aW a)) with
              | Some b => match aCh a b with Some (AN m) => Some m | _ => None end
              | None => None end
  | None => None
  end.

Fixpoint aiter (r : nat) (A : aheap) (k : bytes) (i : nat) : option nat :=
  match i with
  | O => Some r
  | S j => match aiter r A k j with Some n => anext A k n | None => None end
  end.
Definition apath (r : nat) (A : aheap) (k : bytes) (n : nat) : Prop := exists i, aiter r A k i = Some n.

Lemma apath_root r A k : apath r A k r.
Proof. exists 0. reflexivity. Qed.
Lemma apath_step r A k n m : apath r A k n -> anext A k n = Some m -> apath r A k m.
Proof. intros [i H] E. exists (S i). cbn. now rewrite H. Qed.

Lemma anext_Some A k n m : anext A k n = Some m <->
  exists a b, A n = Some a /\ nth_error k (length (aW a)) = Some b /\ aCh a b = Some (AN m).
Proof.
  unfold anext. split.
  - destruct (A n) as [a|]; [|discriminate]. destruct (nth_error k _) as [b|] eqn:E; [|discriminate].
    destruct (aCh a b) as [[?|m']|] eqn:E2; try discriminate. intros H; inversion H; subst. eauto.
  - intros (a & b & -> & -> & ->). reflexivity.
Qed.

(** ** Prefix facts *)
Lemma is_prefix_refl a : is_prefix a a.
Proof. exists []. now rewrite app_nil_r. Qed.
Lemma is_prefix_trans a b c : is_prefix a b -> is_prefix b c -> is_prefix a c.
Proof. intros [x ->] [y ->]. exists (x ++ y). now rewrite app_assoc. Qed.
Lemma is_prefix_app_l a b : is_prefix a (a ++ b).
Proof. now exists b. Qed.
Lemma is_prefix_snoc a b c : is_prefix (a ++ [b]) c <-> is_prefix a c /\ nth_error c (length a) = Some b.
Proof.
  split.
  - intros [x ->]. split.
    + exists (b :: x). rewrite <- app_assoc. reflexivity.
    + rewrite <- app_assoc. rewrite nth_error_app2 by lia. now rewrite Nat.sub_diag.
  - intros [[x ->] H]. rewrite nth_error_app2, Nat.sub_diag in H by lia. destruct x as [|y x]; [discriminate|].
    inversion H; subst. exists x. rewrite <- app_assoc. reflexivity.
Qed.
Lemma is_prefix_length a b : is_prefix a b -> length a <= length b.
Proof. intros [x ->]. rewrite app_length. lia. Qed.
Lemma is_prefix_eq_len a b : is_prefix a b -> length b <= length a -> a = b.
Proof. intros [x ->]. rewrite app_length. destruct x; cbn; [now rewrite app_nil_r|lia]. Qed.
Lemma is_prefix_firstn a b : is_prefix a b <-> firstn (length a) b = a.
Proof.
  split.
  - intros [x ->]. rewrite firstn_app, Nat.sub_diag, firstn_all. cbn. apply app_nil_r.
  - intros H. exists (skipn (length a) b). rewrite <- H at 1. symmetry. apply firstn_skipn.
Qed.
Lemma firstn_is_prefix n a : is_prefix (firstn n a) a.
Proof. exists (skipn n a). now rewrite firstn_skipn. Qed.
Lemma is_prefix_total a b c : is_prefix a c -> is_prefix b c -> length a <= length b -> is_prefix a b.
Proof.
  intros Ha Hb Hl. apply is_prefix_firstn in Ha. apply is_prefix_firstn in Hb.
  apply is_prefix_firstn. rewrite <- Hb, firstn_firstn, Nat.min_l by auto. exact Ha.
Qed.
Lemma is_prefix_nth a b i : is_prefix a b -> i < length a -> nth_error b i = nth_error a i.
Proof. intros [x ->] H. now rewrite nth_error_app1. Qed.

Section Inv.
Context (r : nat) (A : aheap) (I : AInv r A).

Lemma next_props k n m : anext A k n = Some m ->
  exists a am b, A n = Some a /\ A m = Some am /\ nth_error k (length (aW a)) = Some b /\
    aCh a b = Some (AN m) /\ is_prefix (aW a ++ [b]) (aW am) /\
    length (aW am) = length (aW a) + 1 + aPL am.
Proof.
  intros H. apply anext_Some in H as (a & b & Ha & Hk & Hc).
  destruct (ai_node r A I n a b m Ha Hc) as (am & Hm & Hp & Hl). eauto 10.
Qed.

Lemma aiter_live k i n : aiter r A k i = Some n -> exists a, A n = Some a.
Proof.
  destruct i as [|i]; cbn.
  - intros H. injection H as <-. destruct (ai_root r A I) as (a & ? & _). eauto.
  - destruct (aiter r A k i) as [m|]; [|discriminate]. intros H.
    apply next_props in H as (?&am&?&_&?&_). eauto.
Qed.

Lemma apath_live k n : apath r A k n -> exists a, A n = Some a.
Proof. intros [i H]. eapply aiter_live; eauto. Qed.

Lemma aiter_down k i j n : aiter r A k i = Some n -> i <= j ->
  forall m, aiter r A k j = Some m -> forall a am, A n = Some a -> A m = Some am ->
  is_prefix (aW a) (aW am).
Proof.
  intros Hi Hle. induction Hle as [|j Hle IH]; intros m Hm a am Ha Ham.
  - assert (n = m) by congruence. subst. assert (a = am) by congruence. subst. apply is_prefix_refl.
  - cbn in Hm. destruct (aiter r A k j) as [x|] eqn:Ex; [|discriminate].
    apply next_props in Hm as (ax & am' & b & Hx & Hm' & _ & _ & Hp & _).
    assert (am = am') by congruence. subst am'.
    eapply is_prefix_trans; [eapply (IH x eq_refl a ax); auto|].
    eapply is_prefix_trans; [|exact Hp]. apply is_prefix_app_l.
Qed.

(** A node whose path is a prefix of [k] is met by the descent for [k]. *)
Lemma live_apath k m am : A m = Some am -> is_prefix (aW am) k -> apath r A k m.
Proof.
  remember (length (aW am)) as L eqn:HL. revert m am HL.
  induction L as [L IH] using lt_wf_ind. intros m am HL Hm Hp.
  destruct (Nat.eq_dec m r) as [->|Hne]; [apply apath_root|].
  destruct (ai_parent r A I m am Hm Hne) as (n & a & b & Hn & Hc).
  destruct (ai_node r A I n a b m Hn Hc) as (am' & Hm' & Hp' & Hl).
  assert (am' = am) by congruence. subst am'.
  assert (Hk : is_prefix (aW a ++ [b]) k) by (eapply is_prefix_trans; eauto).
  apply is_prefix_snoc in Hk as (Hk1 & Hk2).
  eapply apath_step.
  - eapply (IH (length (aW a))); [lia|reflexivity|exact Hn|exact Hk1].
  - apply anext_Some. eauto.
Qed.

Lemma term_index k i j t n : aiter r A k i = Some t -> anext A k t = None -> aiter r A k j = Some n -> j <= i.
Proof.
  intros Hi Ht Hj. destruct (Nat.le_gt_cases j i) as [|Hlt]; auto. exfalso.
  assert (G : forall d, aiter r A k (S i + d) = None).
  { induction d as [|d IHd]; cbn.
    - rewrite Nat.add_0_r. rewrite Hi. exact Ht.
    - rewrite Nat.add_succ_r. cbn. cbn in IHd. now rewrite IHd. }
  specialize (G (j - S i)). replace (S i + (j - S i)) with j in G by lia. congruence.
Qed.

Lemma term_unique k t1 t2 : apath r A k t1 -> anext A k t1 = None ->
  apath r A k t2 -> anext A k t2 = None -> t1 = t2.
Proof.
  intros [i Hi] H1 [j Hj] H2.
  pose proof (term_index k i j t1 t2 Hi H1 Hj). pose proof (term_index k j i t2 t1 Hj H2 Hi).
  assert (i = j) by lia. subst. congruence.
Qed.

Lemma holds_prefix n a k v : A n = Some a -> holds a k v -> is_prefix (aW a) k.
Proof.
  intros Hn [[-> _]|[b Hb]]; [apply is_prefix_refl|].
  apply (ai_leaf r A I n a b k v Hn) in Hb. now apply is_prefix_snoc in Hb.
Qed.

Lemma holds_term n a k v : A n = Some a -> holds a k v -> anext A k n = None.
Proof.
  intros Hn [[-> _]|[b Hb]].
  - unfold anext. rewrite Hn. rewrite (proj2 (nth_error_None (aW a) (length (aW a)))) by lia. reflexivity.
  - pose proof (ai_leaf r A I n a b k v Hn Hb) as Hp. apply is_prefix_snoc in Hp as (_ & Hk).
    unfold anext. rewrite Hn, Hk, Hb. reflexivity.
Qed.

Lemma holds_apath n a k v : A n = Some a -> holds a k v -> apath r A k n.
Proof. intros Hn H. eapply live_apath; eauto using holds_prefix. Qed.

(** At the end of the descent the answer is local. *)
Lemma contents_at k t a v : apath r A k t -> anext A k t = None -> A t = Some a ->
  (contents A k v <-> holds a k v).
Proof.
  intros Hp Ht Ha. split.
  - intros (n & a' & Hn & Hh).
    assert (n = t) by (eapply term_unique; eauto using holds_apath, holds_term). subst n. congruence.
  - intros Hh. exists t, a. auto.
Qed.

Lemma contents_path_prefix k v n a : contents A k v -> apath r A k n -> A n = Some a -> is_prefix (aW a) k.
Proof.
  intros (t & at_ & Ht & Hh) [j Hj] Ha.
  destruct (holds_apath t at_ k v Ht Hh) as [i Hi].
  pose proof (term_index k i j t n Hi (holds_term _ _ _ _ Ht Hh) Hj) as Hle.
  eapply is_prefix_trans; [exact (aiter_down k j i n Hj Hle t Hi a at_ Ha Ht)|].
  exact (holds_prefix t at_ k v Ht Hh).
Qed.

Lemma holds_leaf_key n a k v b k' v' : A n = Some a -> aCh a b = Some (AL k' v') ->
  nth_error k (length (aW a)) = Some b -> holds a k v -> k' = k /\ v' = v.
Proof.
  intros Hn Hb Hk [[-> _]|[b' Hb']].
  - assert (X : length (aW a) < length (aW a)) by (apply (proj1 (nth_error_Some (aW a) _)); congruence). lia.
  - apply (ai_leaf r A I n a b' k v Hn) in Hb' as Hp. apply is_prefix_snoc in Hp as (_ & Hk').
    assert (b' = b) by congruence. subst. rewrite Hb in Hb'. inversion Hb'. auto.
Qed.

Lemma holds_fun n a k v v' : A n = Some a -> holds a k v -> holds a k v' -> v = v'.
Proof.
  intros Hn H [[-> Hl]|[b Hb]].
  - destruct H as [[_ H]|[b H]]; [congruence|]. apply (ai_leaf r A I n a b _ _ Hn) in H.
    apply is_prefix_length in H. rewrite app_length in H. cbn in H. lia.
  - pose proof (ai_leaf r A I n a b k v' Hn Hb) as Hp. apply is_prefix_snoc in Hp as (_ & Hk).
    eapply (holds_leaf_key n a k v b k v') in H; eauto. destruct H. congruence.
Qed.

Lemma contents_fun k v v' : contents A k v -> contents A k v' -> v = v'.
Proof.
  intros (n & a & Hn & Hh) H'.
  eapply contents_at in H'; [|eapply holds_apath; eauto|eapply holds_term; eauto|exact Hn].
  eapply holds_fun; eauto.
Qed.

(** Two live nodes with the same path are the same node. *)
Lemma path_len_unique k n1 n2 a1 a2 : apath r A k n1 -> apath r A k n2 ->
  A n1 = Some a1 -> A n2 = Some a2 -> length (aW a1) = length (aW a2) -> n1 = n2.
Proof.
  intros [i Hi] [j Hj] H1 H2 HL.
  assert (G : forall i j n1 n2 a1 a2, i <= j -> aiter r A k i = Some n1 -> aiter r A k j = Some n2 ->
     A n1 = Some a1 -> A n2 = Some a2 -> length (aW a1) = length (aW a2) -> n1 = n2).
  { clear i j Hi Hj H1 H2 HL n1 n2 a1 a2. intros i j n1 n2 a1 a2 Hle Hi Hj H1 H2 HL.
    destruct (Nat.eq_dec i j) as [->|Hne]; [congruence|]. exfalso.
    destruct j as [|j]; [lia|]. cbn in Hj. destruct (aiter r A k j) as [x|] eqn:Ex; [|discriminate].
    apply next_props in Hj as (ax & am & b & Hx & Hm & _ & _ & _ & Hl).
    assert (am = a2) by congruence. subst am.
    assert (is_prefix (aW a1) (aW ax)) as Hp by (eapply (aiter_down k i j); eauto; lia).
    apply is_prefix_length in Hp. lia. }
  destruct (Nat.le_ge_cases i j).
  - eapply (G i j); eauto.
  - symmetry. eapply (G j i); eauto.
Qed.

Lemma W_inj n1 n2 a1 a2 : A n1 = Some a1 -> A n2 = Some a2 -> aW a1 = aW a2 -> n1 = n2.
Proof.
  intros H1 H2 E. eapply (path_len_unique (aW a1)); eauto.
  - eapply live_apath; eauto using is_prefix_refl.
  - eapply live_apath; eauto. rewrite E. apply is_prefix_refl.
  - congruence.
Qed.

Lemma parent_unique n1 n2 a1 a2 b1 b2 m : A n1 = Some a1 -> A n2 = Some a2 ->
  aCh a1 b1 = Some (AN m) -> aCh a2 b2 = Some (AN m) -> n1 = n2 /\ b1 = b2.
Proof.
  intros H1 H2 C1 C2.
  destruct (ai_node r A I _ _ _ _ H1 C1) as (am & Hm & P1 & L1).
  destruct (ai_node r A I _ _ _ _ H2 C2) as (am' & Hm' & P2 & L2).
  assert (am' = am) by congruence. subst am'.
  assert (E : aW a1 ++ [b1] = aW a2 ++ [b2]).
  { assert (is_prefix (aW a1 ++ [b1]) (aW a2 ++ [b2])).
    { eapply is_prefix_total; eauto. rewrite !app_length. cbn. lia. }
    apply is_prefix_eq_len in H; auto. rewrite !app_length. cbn. lia. }
  apply app_inj_tail in E as (E & ->). split; [|reflexivity]. eapply W_inj; eauto.
Qed.

Lemma root_no_parent n a b : A n = Some a -> aCh a b <> Some (AN r).
Proof.
  intros Hn Hc. destruct (ai_node r A I _ _ _ _ Hn Hc) as (am & Hm & _ & L).
  destruct (ai_root r A I) as (ar & Hr & E & _). assert (am = ar) by congruence. subst. rewrite E in L. cbn in L. lia.
Qed.

Lemma no_self n a b : A n = Some a -> aCh a b <> Some (AN n).
Proof.
  intros Hn Hc. destruct (ai_node r A I _ _ _ _ Hn Hc) as (am & Hm & _ & L).
  assert (am = a) by congruence. subst. lia.
Qed.

Lemma root_W n a : A n = Some a -> n <> r -> 0 < length (aW a).
Proof.
  intros Hn Hne. destruct (aW a) eqn:E; cbn; [|lia]. exfalso. apply Hne.
  destruct (ai_root r A I) as (ar & Hr & E' & _). eapply W_inj; eauto. congruence.
Qed.

(** ** S1: in-place change of one node's leaves *)
Lemma s_update n a a' :
  A n = Some a -> aW a' = aW a -> aPL a' = aPL a ->
  (forall b m, aCh a' b = Some (AN m) <-> aCh a b = Some (AN m)) ->
  (forall b k v, aCh a' b = Some (AL k v) -> is_prefix (aW a ++ [b]) k) ->
  AInv r (aset A n (Some a')).
Proof.
  intros Hn EW EP EN EL.
  assert (G : forall i x, aset A n (Some a') i = Some x ->
     exists y, A i = Some y /\ aW x = aW y /\ aPL x = aPL y /\
       (forall b m, aCh x b = Some (AN m) <-> aCh y b = Some (AN m)) /\
       (forall b k v, aCh x b = Some (AL k v) -> is_prefix (aW y ++ [b]) k)).
  { intros i x. unfold aset. destruct (Nat.eqb_spec i n) as [->|Hne]; intros H.
    - inversion H; subst x. exists a. auto 10.
    - exists x. repeat split; auto. intros b k v Hb. eapply (ai_leaf r A I); eauto. }
  assert (G' : forall i y, A i = Some y -> exists x, aset A n (Some a') i = Some x /\
      aW x = aW y /\ aPL x = aPL y /\ (forall b m, aCh x b = Some (AN m) <-> aCh y b = Some (AN m))).
  { intros i y H. unfold aset. destruct (Nat.eqb_spec i n) as [->|Hne].
    - assert (y = a) by congruence. subst. exists a'. auto.
    - exists y. repeat split; auto. }
  constructor.
  - destruct (ai_root r A I) as (ar & Hr & E1 & E2). destruct (G' r ar Hr) as (x & Hx & ? & ? & _).
    exists x. split; auto. split; congruence.
  - intros i x b k v Hx Hb. destruct (G i x Hx) as (y & Hy & E1 & _ & _ & EL'). rewrite E1. eauto.
  - intros i x b m Hx Hb. destruct (G i x Hx) as (y & Hy & E1 & _ & EN' & _).
    apply EN' in Hb. destruct (ai_node r A I _ _ _ _ Hy Hb) as (am & Hm & P & L).
    destruct (G' m am Hm) as (xm & Hxm & E3 & E4 & _). exists xm. rewrite E1, E3, E4. auto.
  - intros m xm Hxm Hne. destruct (G m xm Hxm) as (ym & Hym & _).
    destruct (ai_parent r A I m ym Hym Hne) as (p & ap & b & Hp & Hb).
    destruct (G' p ap Hp) as (xp & Hxp & _ & _ & EN'). exists p, xp, b. split; auto. now apply EN'.
Qed.

Lemma s_update_contents n a a' k : A n = Some a ->
  apath r A k n -> anext A k n = None ->
  (forall k' v, k' <> k -> (holds a' k' v <-> holds a k' v)) ->
  (forall k' v, k' <> k -> (contents (aset A n (Some a')) k' v <-> contents A k' v)) /\
  (forall v, contents (aset A n (Some a')) k v <-> holds a' k v).
Proof.
  intros Hn Hp Ht HH. split.
  - intros k' v Hk. unfold contents. split; intros (i & x & Hx & Hh).
    + unfold aset in Hx. destruct (Nat.eqb_spec i n) as [->|].
      * inversion Hx; subst x. apply HH in Hh; auto. eauto.
      * eauto.
    + destruct (Nat.eq_dec i n) as [->|Hne].
      * exists n, a'. rewrite aset_eq. split; auto. apply HH; auto. congruence.
      * exists i, x. rewrite aset_ne; auto.
  - intros v. split.
    + intros (i & x & Hx & Hh). unfold aset in Hx. destruct (Nat.eqb_spec i n) as [->|Hne].
      * inversion Hx; subst x. auto.
      * exfalso. apply Hne. eapply term_unique; eauto using holds_apath, holds_term.
    + intros Hh. exists n, a'. rewrite aset_eq. auto.
Qed.

(** ** S2: moving a node to a fresh address *)
Definition rename (p b m m' : nat) (ap am : anode) : aheap :=
  aset (aset (aset A m None) m' (Some am)) p (Some (mkA (aW ap) (aPL ap) (aLeaf ap) (cset (aCh ap) b (Some (AN m'))))).

Lemma s_rename p b m m' ap am : A p = Some ap -> aCh ap b = Some (AN m) -> A m = Some am -> A m' = None ->
  AInv r (rename p b m m' ap am) /\ (forall k v, contents (rename p b m m' ap am) k v <-> contents A k v).
Proof.
  intros Hp Hb Hm Hf.
  assert (Hpm : p <> m) by (intros ->; exact (no_self m ap b Hp Hb)).
  assert (Hpm' : p <> m') by congruence. assert (Hmm' : m <> m') by congruence.
  assert (Hmr : m <> r) by (intros ->; exact (root_no_parent p ap b Hp Hb)).
  unfold rename. set (ap' := mkA _ _ _ _). set (A' := aset _ p _).
  assert (Ep : A' p = Some ap') by apply aset_eq.
  assert (Em : A' m = None) by (unfold A'; rewrite aset_ne, aset_ne by auto; apply aset_eq).
  assert (Em' : A' m' = Some am) by (unfold A'; rewrite aset_ne by auto; apply aset_eq).
  assert (Eo : forall i, i <> p -> i <> m -> i <> m' -> A' i = A i)
    by (intros; unfold A'; rewrite !aset_ne; auto).
  assert (HU : forall i x c, A i = Some x -> aCh x c = Some (AN m) -> i = p /\ c = b)
    by (intros i x c Hx Hc; eapply parent_unique; eauto).
  (* back: every new node comes from an old one *)
  assert (G : forall i x, A' i = Some x -> exists j y, A j = Some y /\ (j = m <-> i = m') /\ (j <> m -> i = j) /\ aW x = aW y /\ aPL x = aPL y /\
     aLeaf x = aLeaf y /\
     (forall c, (aCh x c = aCh y c /\ (j <> p \/ c <> b)) \/ (j = p /\ c = b /\ aCh x c = Some (AN m')))).
  { intros i x Hx. destruct (Nat.eq_dec i p) as [->|].
    - rewrite Ep in Hx. inversion Hx; subst x. exists p, ap. repeat split; auto; try congruence.
      intros c. cbn. unfold cset. destruct (Nat.eqb_spec c b); auto.
    - destruct (Nat.eq_dec i m') as [->|].
      + rewrite Em' in Hx. inversion Hx; subst x. exists m, am. repeat split; auto; congruence.
      + destruct (Nat.eq_dec i m) as [->|]; [congruence|].
        rewrite Eo in Hx by auto. exists i, x. repeat split; auto; congruence. }
  split.
  - constructor.
    + destruct (ai_root r A I) as (ar & Hr & E1 & E2). destruct (Nat.eq_dec p r) as [<-|].
      * exists ap'. cbn. assert (ar = ap) by congruence. subst. auto.
      * exists ar. rewrite Eo; auto. congruence.
    + intros i x c k v Hx Hc. destruct (G i x Hx) as (j & y & Hy & _ & _ & -> & _ & _ & Hch).
      destruct (Hch c) as [(E & _)|(_&_&E)]; [|congruence]. rewrite E in Hc. eapply (ai_leaf r A I); eauto.
    + intros i x c q Hx Hc. destruct (G i x Hx) as (j & y & Hy & _ & _ & EW & _ & _ & Hch). rewrite EW.
      destruct (Hch c) as [(E & D)|(-> & -> & E)].
      * rewrite E in Hc. destruct (Nat.eq_dec q m) as [->|Hqm].
        -- destruct (HU _ _ _ Hy Hc) as (-> & ->). exfalso. destruct D; congruence.
        -- destruct (ai_node r A I _ _ _ _ Hy Hc) as (aq & Hq & P & L).
           destruct (Nat.eq_dec q p) as [->|].
           ++ exists ap'. cbn. assert (aq = ap) by congruence. subst. auto.
           ++ exists aq. rewrite Eo; auto. congruence.
      * assert (q = m') by congruence. subst q. exists am. split; auto.
        destruct (ai_node r A I _ _ _ _ Hp Hb) as (am2 & Hm2 & P & L). assert (am2 = am) by congruence. subst.
        assert (y = ap) by congruence. subst. auto.
    + intros q aq Hq Hqr. destruct (Nat.eq_dec q m') as [->|Hqm'].
      * exists p, ap', b. split; auto. cbn. apply cset_eq.
      * assert (HqA : exists x, A q = Some x).
        { destruct (G q aq Hq) as (j & y & Hy & E1 & E2 & _). destruct (Nat.eq_dec j m); [tauto|]. rewrite E2 by auto. eauto. }
        destruct HqA as [x Hx]. assert (q <> m) by congruence.
        destruct (ai_parent r A I q x Hx Hqr) as (n & a & c & Hn & Hc).
        destruct (Nat.eq_dec n p) as [->|].
        -- exists p, ap', c. split; auto. cbn. rewrite cset_ne; [congruence|].
           intros ->. congruence.
        -- destruct (Nat.eq_dec n m) as [->|].
           ++ exists m', am, c. split; auto. congruence.
           ++ exists n, a, c. rewrite Eo; auto. congruence.
  - intros k v. unfold contents, holds. split.
    + intros (i & x & Hx & Hh). destruct (G i x Hx) as (j & y & Hy & _ & _ & EW & _ & ELf & Hch).
      exists j, y. split; auto. rewrite <- EW, <- ELf. destruct Hh as [Hh|[c Hc]]; [auto|right]. exists c.
      destruct (Hch c) as [(E & _)|(_&_&E)]; congruence.
    + intros (i & x & Hx & Hh). destruct (Nat.eq_dec i p) as [->|].
      * exists p, ap'. split; auto. assert (x = ap) by congruence. subst. cbn.
        destruct Hh as [Hh|[c Hc]]; [auto|right]. exists c. rewrite cset_ne; auto. congruence.
      * destruct (Nat.eq_dec i m) as [->|].
        -- exists m', am. split; auto. assert (x = am) by congruence. subst. auto.
        -- exists i, x. rewrite Eo; auto. congruence.
Qed.
End Inv.
