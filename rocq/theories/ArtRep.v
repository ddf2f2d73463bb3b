(** * ArtRep: when a concrete node represents an abstract one, and what the node-level
    operations do to the abstract node. *)
From Verif Require Import Base BitsModel BitsFacts VecModel VecProofs VecProofs2 ArtNode
  ArtNodeProofs ArtNodeProofs2 ArtNodeProofs3 ArtTree ArtTree2.
Ltac Zify.zify_post_hook ::= Z.div_mod_to_equations.

Global Arguments nchild : simpl never.

(** The 8-byte buffer holding a compressed path. *)
Definition pad8 (x : bytes) : bytes := firstn 8 (x ++ zeros 8).
Definition stored (W : bytes) (pl : nat) : bytes := pad8 (skipn (length W - pl) W).

Definition conv (p : aptr) : ptr :=
  match p with AL k v => PLeaf (newLeaf k v) | AN m => PNode m end.

Definition bytes_ok (k : bytes) : Prop := Forall (fun b => b < 256) k.

Definition nleaf {A} (o : option A) : nat := match o with Some _ => 1 | None => 0 end.

Record nrep (isroot : bool) (nd : node) (a : anode) : Prop := {
  nr_layout : layout_ok nd;
  nr_pl : aPL a <= length (aW a);
  nr_plen : n_plen nd = aPL a;
  nr_prefix : n_prefix nd = stored (aW a) (aPL a);
  nr_pleaf : n_pleaf nd = option_map (newLeaf (aW a)) (aLeaf a);
  nr_V : forall b, V nd b = option_map conv (aCh a b);
  nr_min : min_size (n_type nd) <= nchild nd;
  nr_occ : isroot = false -> 2 <= nchild nd + nleaf (aLeaf a);
  nr_W : bytes_ok (aW a);
  nr_keys : forall k v, holds a k v -> fits32 (length k) /\ fits32 (length v) /\ bytes_ok k
}.

(** ** Byte buffers *)
Lemma pad8_length x : length (pad8 x) = 8.
Proof. unfold pad8. rewrite firstn_length, app_length. unfold zeros. rewrite repeat_length. lia. Qed.

Lemma nth_pad8 x i : i < 8 -> nth i (pad8 x) 0 = nth i x 0.
Proof.
  intros H. unfold pad8. rewrite nth_firstn by auto. destruct (Nat.lt_ge_cases i (length x)).
  - now rewrite app_nth1.
  - rewrite app_nth2 by lia. rewrite (nth_overflow x) by lia. unfold zeros. apply nth_repeat_any.
Qed.

Lemma pad8_ext x l : length l = 8 -> (forall i, i < 8 -> nth i l 0 = nth i x 0) -> l = pad8 x.
Proof.
  intros HL H. apply (nth_ext _ _ 0 0); [now rewrite pad8_length|].
  intros i Hi. rewrite nth_pad8 by lia. apply H. lia.
Qed.

Lemma copy_pad8 x : copy_at (zeros 8) 0 x = Ok (pad8 x).
Proof.
  unfold copy_at. change (length (zeros 8)) with 8. cbn [Nat.leb firstn app]. f_equal.
  apply pad8_ext.
  - rewrite app_length, firstn_length, skipn_length. change (length (zeros 8)) with 8. lia.
  - intros i Hi. destruct (Nat.lt_ge_cases i (length x)).
    + rewrite app_nth1 by (rewrite firstn_length; lia). now rewrite nth_firstn by lia.
    + rewrite app_nth2 by (rewrite firstn_length; lia). rewrite (nth_overflow x) by lia.
      rewrite nth_skipn. unfold zeros. apply nth_repeat_any.
Qed.

Lemma stored_length W pl : length (stored W pl) = 8.
Proof. apply pad8_length. Qed.

Lemma nth_stored W pl i : i < 8 -> nth i (stored W pl) 0 = nth (length W - pl + i) W 0.
Proof. intros H. unfold stored. rewrite nth_pad8, nth_skipn by auto. reflexivity. Qed.

Lemma stored_0 W : stored W 0 = zeros 8.
Proof. unfold stored. rewrite Nat.sub_0_r, skipn_all. reflexivity. Qed.


Lemma bytes_ok_nth k i b : bytes_ok k -> nth_error k i = Some b -> b < 256.
Proof. intros H E. apply nth_error_In in E. eapply Forall_forall in H; eauto. Qed.

Lemma bytes_ok_prefix a k : is_prefix a k -> bytes_ok k -> bytes_ok a.
Proof. intros [x ->] H. unfold bytes_ok in *. now apply Forall_app in H. Qed.

Lemma wf_bytes_ok k : wf_bytes k = true -> bytes_ok k.
Proof.
  unfold wf_bytes, bytes_ok. rewrite forallb_forall, Forall_forall. intros H x Hx.
  specialize (H x Hx). unfold is_byte in H. now apply Nat.ltb_lt.
Qed.

Lemma slice_ok {A} (l : list A) a b : a <= b -> b <= length l -> slice l a b = Ok (firstn (b - a) (skipn a l)).
Proof. intros H1 H2. unfold slice. bc. reflexivity. Qed.

(** The bytes of a compressed path, read off a key that has the path as a prefix. *)
Lemma path_slice W key pl : is_prefix W key -> pl <= length W ->
  firstn pl (skipn (length W - pl) key) = skipn (length W - pl) W.
Proof.
  intros [x ->] H. rewrite skipn_app. replace (length W - pl - length W) with 0 by lia. cbn [skipn].
  rewrite firstn_app, skipn_length. replace (pl - (length W - (length W - pl))) with 0 by lia. cbn [firstn].
  rewrite app_nil_r. apply firstn_all2. rewrite skipn_length. lia.
Qed.

Lemma Ok_inj {A} (x y : A) : Ok x = Ok y -> x = y.
Proof. congruence. Qed.

(** The layout does not depend on the header fields. *)
Definition same_body (n n' : node) : Prop :=
  n_type n' = n_type n /\ n_num n' = n_num n /\ n_keys n' = n_keys n /\ n_children n' = n_children n /\
  n_index n' = n_index n /\ n_slots n' = n_slots n.

Lemma same_body_V n n' : same_body n n' -> forall b, V n' b = V n b.
Proof. intros (H1 & H2 & H3 & H4 & H5 & _) b. unfold V. now rewrite H1, H2, H3, H4, H5. Qed.

Lemma same_body_nchild n n' : same_body n n' -> nchild n' = nchild n.
Proof. intros H. unfold nchild. apply cnt_ext. intros i _. now rewrite (same_body_V n n' H). Qed.

Lemma same_body_layout n n' : same_body n n' -> layout_ok n -> layout_ok n'.
Proof.
  intros H (L1 & L2 & L3). pose proof (same_body_V n n' H) as HV. pose proof (same_body_nchild n n' H) as HN.
  destruct H as (H1 & H2 & H3 & H4 & H5 & H6). unfold layout_ok. rewrite HN, H1, H2. split; auto. split; auto.
  destruct (n_type n) eqn:ET.
  - destruct L3; constructor; rewrite ?H1, ?H2, ?H3, ?H4; rewrite ?ET in *; auto.
  - destruct L3; constructor; rewrite ?H1, ?H2, ?H3, ?H4; rewrite ?ET in *; auto.
  - destruct L3; constructor; rewrite ?HN, ?H1, ?H2, ?H3, ?H4, ?H5, ?H6; auto.
  - congruence.
  - auto.
Qed.

Ltac body := repeat split.

Section Node.
Context (root : bool) (nd : node) (a : anode) (R : nrep root nd a).

Lemma check_spec key depth : depth = length (aW a) - aPL a -> depth <= length key ->
  exists d b, checkPrefixN nd key depth = Ok (d, b) /\
    (b = true -> d = length (aW a) /\ length (aW a) <= length key) /\
    (b = false -> ~ is_prefix (aW a) key).
Proof.
  intros Hd Hk. pose proof (nr_pl _ _ _ R) as HP. unfold checkPrefixN. rewrite (nr_plen _ _ _ R).
  destruct (Nat.eqb_spec (aPL a) 0) as [E|E].
  - eexists _, _. split; [reflexivity|]. split; [lia|discriminate].
  - destruct (Nat.ltb_spec (length key) (depth + aPL a)).
    + eexists _, _. split; [reflexivity|]. split; [discriminate|].
      intros _ P. apply is_prefix_length in P. lia.
    + rewrite slice_ok by lia. cbn [bind]. rewrite copy_pad8. cbn [bind].
      eexists _, _. split; [reflexivity|]. split; [lia|]. intros F P.
      apply beqb_neq in F. apply F. rewrite (nr_prefix _ _ _ R). unfold stored. f_equal.
      replace (depth + aPL a - depth) with (aPL a) by lia. rewrite Hd. apply path_slice; auto.
Qed.

Lemma find_rep b : b < 256 ->
  exists slot pos, findChild nd b = Ok (option_map conv (aCh a b), slot, pos) /\
    (aCh a b <> None -> slot_of nd b slot pos).
Proof.
  intros Hb. destruct (find_spec nd b (nr_layout _ _ _ R) Hb) as (slot & pos & E & H).
  rewrite (nr_V _ _ _ R) in E. exists slot, pos. split; auto. intros H'. apply H.
  rewrite (nr_V _ _ _ R). destruct (aCh a b); cbn; congruence.
Qed.

Lemma V_None b : V nd b = None <-> aCh a b = None.
Proof. rewrite (nr_V _ _ _ R). destruct (aCh a b); cbn; split; congruence. Qed.

Lemma rep_byte b : aCh a b <> None -> b < 256.
Proof.
  intros H. destruct (Nat.lt_ge_cases b 256) as [|Hb]; auto. exfalso. apply H. apply V_None.
  apply V_byte; auto. apply (nr_layout _ _ _ R).
Qed.

Lemma conv_child a0 b x : (forall b', V nd b' = option_map conv (aCh a0 b')) ->
  forall nd', (forall b', V nd' b' = if Nat.eqb b' b then option_map conv x else V nd b') ->
  forall b', V nd' b' = option_map conv (aCh (with_child a0 b x) b').
Proof.
  intros H nd' H' b'. rewrite H'. cbn. unfold cset. destruct (Nat.eqb b' b); auto.
Qed.

Definition ptr_ok (p : aptr) : Prop :=
  match p with AL k v => fits32 (length k) /\ fits32 (length v) /\ bytes_ok k | AN _ => True end.

Lemma keys_child b p : ptr_ok p ->
  forall k' v', holds (with_child a b (Some p)) k' v' -> fits32 (length k') /\ fits32 (length v') /\ bytes_ok k'.
Proof.
  intros Hp k' v' [[-> H]|[c H]].
  - apply (nr_keys _ _ _ R). left. auto.
  - cbn in H. unfold cset in H. destruct (Nat.eqb c b); [inversion H; subst; auto|].
    apply (nr_keys _ _ _ R). right. eauto.
Qed.

Lemma keys_child_None b : forall k' v', holds (with_child a b None) k' v' -> fits32 (length k') /\ fits32 (length v') /\ bytes_ok k'.
Proof.
  intros k' v' [[-> H]|[c H]].
  - apply (nr_keys _ _ _ R). left. auto.
  - cbn in H. unfold cset in H. destruct (Nat.eqb c b); [discriminate|].
    apply (nr_keys _ _ _ R). right. eauto.
Qed.

Lemma keys_leaf l : (forall v, l = Some v -> fits32 (length v) /\ fits32 (length (aW a))) ->
  forall k' v', holds (with_leaf a l) k' v' -> fits32 (length k') /\ fits32 (length v') /\ bytes_ok k'.
Proof.
  intros Hv k' v' [[-> H]|[c H]].
  - cbn in *. destruct (Hv v' H). split; auto. split; auto. apply (nr_W _ _ _ R).
  - apply (nr_keys _ _ _ R). right. eauto.
Qed.

Lemma rep_set_leaf v : fits32 (length (aW a)) -> fits32 (length v) ->
  nrep root (updatePrefixLeaf nd (aW a) v) (with_leaf a (Some v)).
Proof.
  intros Hk Hv. pose proof R as [L P1 P2 P3 P4 P5 P6 P7 P8 P9]. constructor; auto.
  - eapply same_body_layout; [|exact L]. body.
  - intros E. specialize (P7 E). change (nchild (updatePrefixLeaf nd (aW a) v)) with (nchild nd). cbn [with_leaf aLeaf nleaf].
    destruct (aLeaf a); cbn [nleaf] in P7; lia.
  - apply keys_leaf. intros v' E. inversion E; subst. auto.
Qed.

Lemma rep_clear_leaf : (root = false -> 2 <= nchild nd) -> nrep root (set_pleaf nd None) (with_leaf a None).
Proof.
  intros H. pose proof R as [L P1 P2 P3 P4 P5 P6 P7 P8 P9]. constructor; auto.
  - eapply same_body_layout; [|exact L]. body.
  - intros E. change (nchild (set_pleaf nd None)) with (nchild nd). specialize (H E). lia.
  - apply keys_leaf. discriminate.
Qed.

Lemma nchild_ext n n' : (forall b, isSome (V n' b) = isSome (V n b)) -> nchild n' = nchild n.
Proof. intros H. unfold nchild. apply cnt_ext. intros; apply H. Qed.

Lemma rep_set_child b slot pos p : aCh a b <> None -> slot_of nd b slot pos ->
  ptr_ok p ->
  slot < length (n_children nd) /\
  nrep root (set_children nd (set_nth (n_children nd) slot (Some (conv p)))) (with_child a b (Some p)).
Proof.
  intros Hb Hs Hp. pose proof R as [L P1 P2 P3 P4 P5 P6 P7 P8 P9].
  assert (HV : V nd b <> None) by (rewrite V_None; auto).
  destruct (set_slot_spec nd b slot pos (conv p) L HV Hs) as (Hl & L' & V' & _). split; auto.
  set (nd' := set_children _ _) in *.
  assert (EN : nchild nd' = nchild nd).
  { apply nchild_ext. intros b'. rewrite V'. destruct (Nat.eqb_spec b' b) as [->|]; auto. destruct (V nd b); auto. congruence. }
  constructor; auto.
  - apply conv_child; auto.
  - rewrite EN. exact P6.
  - rewrite EN. exact P7.
  - apply keys_child; auto.
Qed.

Lemma hdr_eqs n n' : hdr n' = hdr n -> n_plen n' = n_plen n /\ n_pleaf n' = n_pleaf n /\ n_prefix n' = n_prefix n.
Proof. unfold hdr. intros H. inversion H. auto. Qed.

Lemma rep_add_gen n' b p : aCh a b = None -> b < 256 -> ptr_ok p ->
  layout_ok n' -> hdr n' = hdr nd -> min_size (n_type n') <= S (nchild nd) ->
  (forall b', V n' b' = if Nat.eqb b' b then Some (conv p) else V nd b') ->
  nrep root n' (with_child a b (Some p)).
Proof.
  intros Hb Hb2 Hp L' Hh Hm V'. pose proof R as [L P1 P2 P3 P4 P5 P6 P7 P8 P9].
  apply hdr_eqs in Hh as (H1 & H2 & H3).
  assert (EN : nchild n' = S (nchild nd)) by (eapply nchild_add; eauto; now apply V_None).
  constructor; auto.
  - now rewrite H1.
  - now rewrite H3.
  - now rewrite H2.
  - apply conv_child; auto.
  - rewrite EN. exact Hm.
  - rewrite EN. intros E. specialize (P7 E). cbn [with_child aLeaf]. lia.
  - apply keys_child; auto.
Qed.

Lemma nchild_lt b : b < 256 -> aCh a b = None -> nchild nd < 256.
Proof.
  intros Hb H. apply V_None in H. unfold nchild.
  destruct (Nat.lt_ge_cases (cnt (fun b => isSome (V nd b)) 256) 256) as [|Hge]; auto.
  exfalso. pose proof (cnt_le (fun b => isSome (V nd b)) 256).
  assert (E : cnt (fun b => isSome (V nd b)) 256 = 256) by lia.
  pose proof (cnt_all _ _ E b Hb) as X. cbn beta in X. rewrite H in X. discriminate.
Qed.

Lemma rep_insert b p : aCh a b = None -> b < 256 -> ptr_ok p ->
  isFull nd = Ok false ->
  exists n', insertChild nd b (conv p) = Ok n' /\ n_type n' = n_type nd /\ nrep root n' (with_child a b (Some p)).
Proof.
  intros Hb Hb2 Hp HF. pose proof (nr_layout _ _ _ R) as L. pose proof (nchild_lt b Hb2 Hb) as HL.
  rewrite isFull_spec in HF by auto. apply Ok_inj in HF.
  assert (HC : nchild nd < cap (n_type nd)).
  { pose proof L as (_ & LC & _). destruct (Nat.eqb_spec (nchild nd) (cap (n_type nd))) as [E|]; [|lia].
    cbn in HF. destruct (n_type nd); cbn in *; try discriminate. lia. }
  destruct (insertChild_spec nd b (conv p) L HC Hb2) as (n' & E & L' & T' & H' & V').
  { now apply V_None. }
  exists n'. split; auto. split; auto. eapply rep_add_gen; eauto. rewrite T'. pose proof (nr_min _ _ _ R). lia.
Qed.

Lemma rep_grow b p : aCh a b = None -> b < 256 -> ptr_ok p ->
  isFull nd = Ok true ->
  exists n', growAndInsert nd b (conv p) = Ok n' /\ n_type n' = grown (n_type nd) /\ nrep root n' (with_child a b (Some p)).
Proof.
  intros Hb Hb2 Hp HF. pose proof (nr_layout _ _ _ R) as L. pose proof (nchild_lt b Hb2 Hb) as HL.
  rewrite isFull_spec in HF by auto. apply Ok_inj in HF. apply andb_true_iff in HF as (HF1 & HF2).
  apply Nat.eqb_eq in HF1.
  assert (HT : n_type nd <> Node256) by (intros E; rewrite E in HF2; discriminate).
  destruct (growAndInsert_spec nd b (conv p) L HT HF1 Hb2) as (n' & E & L' & T' & H' & V').
  { now apply V_None. }
  exists n'. split; auto. split; auto. eapply rep_add_gen; eauto. rewrite T', HF1.
  destruct L as (_ & _ & LL). destruct (n_type nd); cbn; try tauto; lia.
Qed.

Lemma full_dec b : b < 256 -> aCh a b = None -> exists f, isFull nd = Ok f.
Proof. intros H1 H2. eexists. apply isFull_spec; [apply R|]. eapply nchild_lt; eauto. Qed.

Lemma rep_del_gen n' b : aCh a b <> None ->
  layout_ok n' -> hdr n' = hdr nd -> min_size (n_type n') <= nchild nd - 1 ->
  (root = false -> 3 <= nchild nd + nleaf (aLeaf a)) ->
  (forall b', V n' b' = if Nat.eqb b' b then None else V nd b') ->
  nrep root n' (with_child a b None).
Proof.
  intros Hb L' Hh Hm Ho V'. pose proof R as [L P1 P2 P3 P4 P5 P6 P7 P8 P9].
  apply hdr_eqs in Hh as (H1 & H2 & H3). pose proof (rep_byte b Hb) as Hb2.
  assert (HV : V nd b <> None) by (rewrite V_None; auto).
  assert (EN : nchild nd = S (nchild n')) by (eapply nchild_del; eauto).
  constructor; auto.
  - now rewrite H1.
  - now rewrite H3.
  - now rewrite H2.
  - apply conv_child; auto.
  - lia.
  - intros E. specialize (Ho E). cbn [with_child aLeaf]. lia.
  - apply keys_child_None; auto.
Qed.

Lemma rep_remove b slot pos pt : aCh a b <> None -> slot_of nd b slot pos ->
  shouldShrink nd pt = Ok false -> (root = false -> pt <> Dummy) ->
  exists n', removeChild nd pos = Ok n' /\ nrep root n' (with_child a b None).
Proof.
  intros Hb Hs HS Hpt. pose proof (nr_layout _ _ _ R) as L. pose proof (rep_byte b Hb) as Hb2.
  assert (HV : V nd b <> None) by (rewrite V_None; auto).
  destruct (removeChild_spec nd b slot pos L HV Hs) as (n' & E & L' & T' & H' & V').
  assert (HP : 0 < nchild nd).
  { unfold nchild. apply (cnt_pos _ 256 b Hb2). destruct (V nd b); [reflexivity|congruence]. }
  exists n'. split; auto. apply rep_del_gen; auto.
  - rewrite T'. destruct (n_type nd) eqn:ET; cbn [min_size]; try lia;
    (rewrite shouldShrink_big in HS by (congruence || auto); apply Ok_inj in HS; rewrite ET in HS; cbn [min_size] in HS;
     apply Nat.leb_gt in HS; lia).
  - intros Er. specialize (Hpt Er). destruct (n_type nd) eqn:ET.
    + unfold shouldShrink in HS. rewrite ET in HS. replace (ntype_eqb pt Dummy) with false in HS by (destruct pt; auto; congruence).
      assert (EQ : n_num nd = nchild nd).
      { destruct L as (L1 & L2 & _). rewrite ET in L2. cbn in L2. rewrite L1. apply Nat.mod_small. lia. }
      rewrite (nr_pleaf _ _ _ R) in HS. destruct (aLeaf a); cbn in *; apply Ok_inj in HS; apply Nat.leb_gt in HS; lia.
    + rewrite shouldShrink_big in HS by (congruence || auto); apply Ok_inj in HS; rewrite ET in HS; cbn [min_size] in HS; apply Nat.leb_gt in HS; lia.
    + rewrite shouldShrink_big in HS by (congruence || auto); apply Ok_inj in HS; rewrite ET in HS; cbn [min_size] in HS; apply Nat.leb_gt in HS; lia.
    + rewrite shouldShrink_big in HS by (congruence || auto); apply Ok_inj in HS; rewrite ET in HS; cbn [min_size] in HS; apply Nat.leb_gt in HS; lia.
    + destruct L as (_ & _ & LL). rewrite ET in LL. tauto.
Qed.

(** shrinking to a smaller kind *)
Definition shrink_any (n : node) (key : byte) : res node :=
  match n_type n with Node16 => shrink16 n key | Node48 => shrink48 n key | _ => shrink256 n key end.

Lemma rep_shrink b pt : aCh a b <> None -> n_type nd <> Node4 ->
  shouldShrink nd pt = Ok true ->
  exists n', shrink_any nd b = Ok n' /\ nrep root n' (with_child a b None).
Proof.
  intros Hb HT HS. pose proof (nr_layout _ _ _ R) as L. pose proof (rep_byte b Hb) as Hb2.
  assert (HV : V nd b <> None) by (rewrite V_None; auto).
  assert (HP : 0 < nchild nd).
  { unfold nchild. apply (cnt_pos _ 256 b Hb2). destruct (V nd b); [reflexivity|congruence]. }
  rewrite shouldShrink_big in HS by auto. apply Ok_inj in HS. apply Nat.leb_le in HS.
  pose proof (nr_min _ _ _ R) as HM. unfold shrink_any.
  destruct (n_type nd) eqn:ET; cbn [min_size] in *; try congruence.
  - destruct (shrink16_spec nd b L ET) as (n' & E & L' & T' & H' & V'); auto; [lia|].
    exists n'. split; auto. apply rep_del_gen; auto; [rewrite T'; cbn|]; lia.
  - destruct (shrink48_spec nd b L ET) as (n' & E & L' & T' & H' & V'); auto; [lia|].
    exists n'. split; auto. apply rep_del_gen; auto; [rewrite T'; cbn|]; lia.
  - destruct (shrink256_spec nd b L ET) as (n' & E & L' & T' & H' & V'); auto; [lia|].
    exists n'. split; auto. apply rep_del_gen; auto; [rewrite T'; cbn|]; lia.
  - destruct L as (_ & _ & LL). rewrite ET in LL. tauto.
Qed.

Lemma shrink_dec b pt : aCh a b <> None -> exists f, shouldShrink nd pt = Ok f.
Proof.
  intros Hb. pose proof (nr_layout _ _ _ R) as L. pose proof (rep_byte b Hb) as Hb2.
  assert (HV : V nd b <> None) by (rewrite V_None; auto).
  assert (HP : 0 < nchild nd).
  { unfold nchild. apply (cnt_pos _ 256 b Hb2). destruct (V nd b); [reflexivity|congruence]. }
  destruct (n_type nd) eqn:ET; try (eexists; apply shouldShrink_big; auto; congruence).
  unfold shouldShrink. rewrite ET. destruct (ntype_eqb pt Dummy); eauto. destruct (n_pleaf nd); eauto.
Qed.
End Node.
