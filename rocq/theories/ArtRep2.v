(** * ArtRep2: the node-level operations that change the tree's structure. *)
From Verif Require Import Base BitsModel BitsFacts VecModel VecProofs VecProofs2 ArtNode
  ArtNodeProofs ArtNodeProofs2 ArtNodeProofs3 ArtTree ArtTree2 ArtRep.
Ltac Zify.zify_post_hook ::= Z.div_mod_to_equations.

Lemma nrep_ext root nd a a' : nrep root nd a -> aW a' = aW a -> aPL a' = aPL a -> aLeaf a' = aLeaf a ->
  (forall b, aCh a' b = aCh a b) -> nrep root nd a'.
Proof.
  intros [L P1 P2 P3 P4 P5 P6 P7 P8 P9] E1 E2 E3 E4. constructor; rewrite ?E1, ?E2, ?E3; auto.
  - intros b. rewrite E4. auto.
  - intros k v [[-> H]|[b H]]; apply P9.
    + left. rewrite E1, <- E3. auto.
    + right. exists b. now rewrite <- E4.
Qed.

Lemma nrep_promote nd a : nrep true nd a -> 2 <= nchild nd + nleaf (aLeaf a) -> nrep false nd a.
Proof. intros [L P1 P2 P3 P4 P5 P6 P7 P8 P9] H. constructor; auto. Qed.

Lemma nrep_demote root nd a : nrep root nd a -> nrep true nd a.
Proof. intros [L P1 P2 P3 P4 P5 P6 P7 P8 P9]. constructor; auto. discriminate. Qed.

Lemma nrep_count root nd a : nrep root nd a -> nchild nd = cnt (fun b => isSome (aCh a b)) 256.
Proof.
  intros R. unfold nchild. apply cnt_ext. intros b _. rewrite (nr_V _ _ _ R). now destruct (aCh a b).
Qed.

Lemma nchild_newNode4 : nchild newNode4 = 0.
Proof. unfold nchild. apply cnt_false. intros b _. now rewrite V_newNode4. Qed.

Lemma nrep_new W : bytes_ok W -> nrep true newNode4 (mkA W 0 None cnone).
Proof.
  intros H. constructor; cbn [aW aPL aLeaf aCh]; auto.
  - apply newNode4_ok.
  - lia.
  - now rewrite stored_0.
  - discriminate.
  - intros k v [[_ E]|[b E]]; discriminate.
Qed.

Lemma nrep_prefix root nd a pl px : nrep root nd a -> pl <= length (aW a) -> px = stored (aW a) pl ->
  nrep root (set_prefix (set_plen nd pl) px) (with_pl a pl).
Proof.
  intros [L P1 P2 P3 P4 P5 P6 P7 P8 P9] H ->. constructor; auto.
  eapply same_body_layout; [|exact L]. body.
Qed.

(** Adding one key to a node whose path is a prefix of it. *)
Definition put_entry (a : anode) (k v : bytes) : anode :=
  match nth_error k (length (aW a)) with
  | None => with_leaf a (Some v)
  | Some b => with_child a b (Some (AL k v))
  end.
Definition no_entry (a : anode) (k : bytes) : Prop :=
  match nth_error k (length (aW a)) with
  | None => aLeaf a = None
  | Some b => aCh a b = None
  end.

Lemma idx_Some {A} (l : list A) i x : nth_error l i = Some x -> idx l i = Ok x.
Proof. intros H. unfold idx. now rewrite H. Qed.

Lemma add_entry nd a key v : nrep true nd a -> n_type nd = Node4 -> nchild nd < 4 ->
  is_prefix (aW a) key -> no_entry a key ->
  fits32 (length key) -> fits32 (length v) -> bytes_ok key ->
  exists n', (if Nat.eqb (length (aW a)) (length key) then Ok (set_pleaf nd (Some (newLeaf key v)))
              else c <- idx key (length (aW a)) ;; insertChild nd c (PLeaf (newLeaf key v))) = Ok n' /\
    n_type n' = Node4 /\ nrep true n' (put_entry a key v) /\ hdr n' = (n_plen nd, (if Nat.eqb (length (aW a)) (length key) then Some (newLeaf key v) else n_pleaf nd), n_prefix nd) /\
    nchild n' + nleaf (aLeaf (put_entry a key v)) = S (nchild nd + nleaf (aLeaf a)).
Proof.
  intros R HT HN HP HE Hk Hv Hb. unfold put_entry, no_entry in *.
  pose proof (is_prefix_length _ _ HP) as HL.
  destruct (Nat.eqb_spec (length (aW a)) (length key)) as [E|E].
  - assert (EK : aW a = key) by (apply is_prefix_eq_len; auto; lia).
    rewrite (proj2 (nth_error_None key (length (aW a)))) in * by lia.
    eexists. split; [reflexivity|]. split; auto. split; [|split].
    + rewrite <- EK at 1. apply rep_set_leaf; auto. now rewrite E.
    + reflexivity.
    + change (nchild (set_pleaf nd _)) with (nchild nd). cbn [with_leaf aLeaf]. rewrite HE. cbn. lia.
  - destruct (nth_error key (length (aW a))) as [b|] eqn:Eb.
    2: { apply nth_error_None in Eb. lia. }
    rewrite (idx_Some _ _ _ Eb). cbn [bind].
    assert (Hb2 : b < 256) by (eapply bytes_ok_nth; eauto).
    assert (HF : isFull nd = Ok false).
    { unfold isFull. rewrite HT. f_equal. apply Nat.eqb_neq. pose proof (nr_layout _ _ _ R) as (L1 & _).
      rewrite L1. rewrite Nat.mod_small by lia. lia. }
    assert (HV : V nd b = None) by (apply (V_None _ _ _ R); auto).
    destruct (insertChild_spec nd b (PLeaf (newLeaf key v)) (nr_layout _ _ _ R)) as (n' & E' & L' & T' & H' & V'); auto.
    { rewrite HT. cbn. lia. }
    exists n'. split; auto. split; [congruence|]. split; [|split].
    + eapply (rep_add_gen _ _ _ R n' b (AL key v)); cbn [ptr_ok conv]; auto.
      rewrite T', HT. cbn. lia.
    + rewrite H'. reflexivity.
    + rewrite (nchild_add nd n' b _ Hb2 HV V'). cbn. lia.
Qed.

Lemma miss_loop_spec (a b : bytes) f : forall pos, pos + f <= length a -> pos + f <= length b ->
  exists q, miss_loop a b f pos = Ok q /\ pos <= q <= pos + f /\
    (forall i, pos <= i < q -> nth_error a i = nth_error b i) /\
    (q < pos + f -> nth_error a q <> nth_error b q).
Proof.
  induction f as [|f IH]; intros pos Ha Hb; cbn [miss_loop].
  - exists pos. split; auto. split; [lia|]. split; intros; lia.
  - destruct (nth_error a pos) as [x|] eqn:Ex. 2: { apply nth_error_None in Ex. lia. }
    destruct (nth_error b pos) as [y|] eqn:Ey. 2: { apply nth_error_None in Ey. lia. }
    rewrite (idx_Some _ _ _ Ex), (idx_Some _ _ _ Ey). cbn [bind].
    destruct (Nat.eqb_spec x y) as [->|Hne].
    + destruct (IH (pos + 1)) as (q & E & Hq & H1 & H2); [lia|lia|]. exists q. split; auto. split; [lia|]. split.
      * intros i Hi. destruct (Nat.eq_dec i pos) as [->|]; [congruence|]. apply H1. lia.
      * intros. apply H2. lia.
    + exists pos. split; auto. split; [lia|]. split; [intros; lia|]. congruence.
Qed.

(** ** updateOrExpand *)
Lemma update_same k v0 v depth : fits32 (length k) ->
  updateOrExpand (newLeaf k v0) k v depth = Ok (inl (newLeaf k v)).
Proof. intros H. unfold updateOrExpand. rewrite leaf_match_newLeaf, beqb_refl by auto. reflexivity. Qed.

Lemma firstn_common {A} (a b : list A) m : (forall i, i < m -> nth_error a i = nth_error b i) -> firstn m a = firstn m b.
Proof.
  revert a b. induction m as [|m IH]; intros a b H; auto.
  pose proof (H 0 ltac:(lia)) as H0. destruct a as [|x a], b as [|y b]; cbn in *; try congruence.
  inversion H0; subst. f_equal. apply IH. intros i Hi. apply (H (S i)). lia.
Qed.

Lemma expand_spec k0 v0 key v W0 : is_prefix W0 k0 -> is_prefix W0 key -> key <> k0 ->
  fits32 (length k0) -> fits32 (length v0) -> bytes_ok k0 ->
  fits32 (length key) -> fits32 (length v) -> bytes_ok key ->
  exists nn Wx, updateOrExpand (newLeaf k0 v0) key v (length W0) = Ok (inr nn) /\
    is_prefix W0 Wx /\ is_prefix Wx k0 /\ is_prefix Wx key /\
    no_entry (leaf_node Wx (length Wx - length W0) k0 v0) key /\
    nrep false nn (put_entry (leaf_node Wx (length Wx - length W0) k0 v0) key v).
Proof.
  intros P0 Pk Hne F0 F0v B0 F1 F1v B1. unfold updateOrExpand.
  rewrite leaf_match_newLeaf by auto. cbn [bind]. rewrite (proj2 (beqb_neq k0 key)) by congruence.
  rewrite leaf_key_newLeaf by auto. cbn [bind].
  pose proof (is_prefix_length _ _ P0) as L0. pose proof (is_prefix_length _ _ Pk) as L1.
  destruct (miss_loop_spec k0 key (Nat.min (length key) (length k0) - length W0) (length W0)) as (q & Eq & Hq & H1 & H2); [lia|lia|].
  rewrite Eq. cbn [bind]. rewrite slice_ok by lia. cbn [bind]. rewrite copy_pad8. cbn [bind].
  set (Wx := firstn q key).
  assert (LX : length Wx = q) by (unfold Wx; rewrite firstn_length; lia).
  assert (EX : Wx = firstn q k0).
  { unfold Wx. apply firstn_common. intros i Hi. destruct (Nat.lt_ge_cases i (length W0)).
    - rewrite (is_prefix_nth W0 key), (is_prefix_nth W0 k0) by auto. auto.
    - symmetry. apply H1. lia. }
  assert (PX0 : is_prefix Wx k0) by (rewrite EX; apply firstn_is_prefix).
  assert (PX1 : is_prefix Wx key) by apply firstn_is_prefix.
  assert (PXW : is_prefix W0 Wx) by (eapply is_prefix_total; eauto; lia).
  assert (BX : bytes_ok Wx) by (eapply bytes_ok_prefix; eauto).
  set (n0 := set_prefix _ _).
  assert (R0 : nrep true n0 (mkA Wx (q - length W0) None cnone)).
  { apply (nrep_prefix true newNode4 (mkA Wx 0 None cnone)).
    - apply nrep_new; auto.
    - cbn. lia.
    - unfold stored. cbn [aW]. rewrite LX. replace (q - (q - length W0)) with (length W0) by lia.
      unfold Wx. rewrite skipn_firstn_comm. reflexivity. }
  assert (C0 : nchild n0 = 0) by exact nchild_newNode4.
  destruct (add_entry n0 _ k0 v0 R0) as (n1 & E1 & T1 & R1 & Hh1 & C1); [reflexivity|lia|auto| |auto|auto|auto|].
  { unfold no_entry. cbn [aW aLeaf aCh]. destruct (nth_error k0 (length Wx)); reflexivity. }
  cbn [aW] in E1. rewrite LX in E1. rewrite E1. cbn [bind].
  rewrite C0 in C1. cbn [aLeaf nleaf] in C1.
  assert (EA : forall b, aCh (leaf_node Wx (q - length W0) k0 v0) b = aCh (put_entry (mkA Wx (q - length W0) None cnone) k0 v0) b).
  { intros b. unfold leaf_node, put_entry. cbn [aW]. rewrite LX.
    destruct (Nat.eqb_spec q (length k0)) as [Ek|Ek].
    - rewrite (proj2 (nth_error_None k0 q)) by lia. reflexivity.
    - rewrite (nth_error_nth' k0 0) by lia. reflexivity. }
  assert (EL : aLeaf (leaf_node Wx (q - length W0) k0 v0) = aLeaf (put_entry (mkA Wx (q - length W0) None cnone) k0 v0)).
  { unfold leaf_node, put_entry. cbn [aW]. rewrite LX.
    destruct (Nat.eqb_spec q (length k0)) as [Ek|Ek].
    - rewrite (proj2 (nth_error_None k0 q)) by lia. reflexivity.
    - rewrite (nth_error_nth' k0 0) by lia. reflexivity. }
  set (a1 := leaf_node Wx (q - length W0) k0 v0) in *.
  assert (R1' : nrep true n1 a1).
  { eapply nrep_ext; [exact R1| | |exact EL|exact EA]; unfold a1; rewrite ?leaf_node_W, ?leaf_node_PL;
    unfold put_entry; cbn [aW]; destruct (nth_error k0 (length Wx)); reflexivity. }
  assert (W1 : aW a1 = Wx) by apply leaf_node_W.
  assert (NE : no_entry a1 key).
  { unfold no_entry. rewrite W1, LX, EL. unfold put_entry. cbn [aW]. rewrite LX.
    destruct (nth_error key q) as [b|] eqn:Eb.
    - rewrite EA. unfold put_entry. cbn [aW]. rewrite LX. destruct (nth_error k0 q) as [c|] eqn:Ec; [|reflexivity].
      cbn. rewrite cset_ne; auto. intros ->. 
      assert (q < length key) by (apply nth_error_Some; congruence). assert (q < length k0) by (apply nth_error_Some; congruence).
      apply (H2 ltac:(lia)). congruence.
    - destruct (nth_error k0 q) as [c|] eqn:Ec; [reflexivity|]. exfalso. apply Hne.
      apply nth_error_None in Eb, Ec.
      rewrite <- (firstn_all2 key Eb). rewrite <- (firstn_all2 k0 Ec). exact EX. }
  destruct (add_entry n1 a1 key v R1' T1) as (n2 & E2 & T2 & R2 & Hh2 & C2); auto.
  { lia. } { now rewrite W1. }
  rewrite W1, LX in E2. rewrite E2. cbn [bind].
  exists n2, Wx. split; auto. split; auto. split; auto. split; auto. rewrite LX. fold a1. split; auto.
  apply nrep_promote; auto. rewrite C2. rewrite EL. lia.
Qed.

(** ** insertSplitPrefix *)
Lemma nth_firstn_ge {A} (l : list A) m i d : m <= i -> nth i (firstn m l) d = d.
Proof. intros H. apply nth_overflow. rewrite firstn_length. lia. Qed.

Lemma nth_nth_error {A} (l : list A) i d x : nth_error l i = Some x -> nth i l d = x.
Proof. apply nth_error_nth. Qed.

Lemma split_spec m nd am key fk v depth p : nrep false nd am -> depth = length (aW am) - aPL am ->
  p < aPL am -> is_prefix (firstn (depth + p) (aW am)) key ->
  nth_error key (depth + p) <> nth_error (aW am) (depth + p) ->
  (8 < aPL am -> is_prefix (aW am) fk) ->
  fits32 (length key) -> fits32 (length v) -> bytes_ok key ->
  exists n' nn, insertSplitPrefix m nd key fk v depth p = Ok (n', nn) /\
    nrep false n' (with_pl am (aPL am - p - 1)) /\
    no_entry (split_node m am p) key /\
    nrep false nn (put_entry (split_node m am p) key v).
Proof.
  intros R Hd Hp PK NK HF F1 F1v B1. pose proof (nr_pl _ _ _ R) as HPL.
  pose proof (nr_plen _ _ _ R) as EPL. pose proof (nr_prefix _ _ _ R) as EPX. pose proof (nr_W _ _ _ R) as BW.
  set (W := aW am) in *. set (pl := aPL am) in *.
  assert (SD : split_d am p = depth + p) by (unfold split_d; fold W pl; lia).
  set (Wx := firstn (depth + p) W) in *.
  assert (LX : length Wx = depth + p) by (unfold Wx; rewrite firstn_length; lia).
  assert (BX : bytes_ok Wx) by (eapply bytes_ok_prefix; [apply firstn_is_prefix|exact BW]).
  destruct (nth_error W (depth + p)) as [c|] eqn:Ec. 2: { apply nth_error_None in Ec. lia. }
  assert (Hc : c < 256) by exact (bytes_ok_nth W _ c BW Ec).
  unfold insertSplitPrefix.
  destruct (add_entry newNode4 (mkA Wx 0 None cnone) key v) as (nn0 & E0 & T0 & R0 & H0 & C0).
  { apply nrep_new; auto. } { reflexivity. } { rewrite nchild_newNode4. lia. } { exact PK. }
  { unfold no_entry. cbn [aW aLeaf aCh]. now destruct (nth_error key (length Wx)). }
  { auto. } { auto. } { auto. }
  cbn [aW] in E0. rewrite LX in E0. rewrite Nat.eqb_sym in E0. rewrite E0. cbn [bind].
  rewrite nchild_newNode4 in C0. cbn [aLeaf nleaf Nat.add] in C0.
  assert (Epx : n_prefix (set_plen nn0 p) = zeros 8).
  { change (n_prefix (set_plen nn0 p)) with (n_prefix nn0). unfold hdr in H0. inversion H0. reflexivity. }
  rewrite Epx, copy_pad8. cbn [bind]. rewrite EPL.
  set (a1 := put_entry (mkA Wx 0 None cnone) key v) in *.
  assert (Wa1 : aW a1 = Wx) by (unfold a1, put_entry; cbn [aW]; now destruct (nth_error key (length Wx))).
  assert (EP : pad8 (firstn (Nat.min maxPrefixLen p) (n_prefix nd)) = stored Wx p).
  { unfold stored. rewrite LX. replace (depth + p - p) with depth by lia. unfold Wx. rewrite skipn_firstn_comm.
    replace (depth + p - depth) with p by lia. apply pad8_ext; [apply pad8_length|].
    intros i Hi. rewrite nth_pad8 by auto. unfold maxPrefixLen. rewrite EPX. destruct (Nat.lt_ge_cases i p).
    - rewrite !nth_firstn by lia. rewrite nth_stored by lia. rewrite nth_skipn. f_equal. fold W. lia.
    - rewrite !nth_firstn_ge by lia. reflexivity. }
  rewrite EP.
  assert (R1 : nrep true (set_prefix (set_plen nn0 p) (stored Wx p)) (with_pl a1 p)).
  { apply nrep_prefix; auto; rewrite Wa1; [lia|reflexivity]. }
  set (nn2 := set_prefix (set_plen nn0 p) (stored Wx p)) in *.
  assert (EQ : exists tmp, (if Nat.leb pl maxPrefixLen then
       pos <- idx (n_prefix nd) p ;;
       let plen := pl - (p + 1) in
       rest <- slice_from (n_prefix nd) (p + 1) ;;
       tmp <- copy_at (zeros 8) 0 (firstn plen rest) ;;
       Ok (pos, plen, tmp)
     else
       pos <- idx fk (depth + p) ;;
       let off := depth + p + 1 in
       let plen := pl - (p + 1) in
       src <- slice fk off (off + plen) ;;
       tmp <- copy_at (zeros 8) 0 src ;;
       Ok (pos, plen, tmp)) = Ok (c, pl - (p + 1), tmp) /\ tmp = stored W (pl - p - 1)).
  { unfold maxPrefixLen. destruct (Nat.leb_spec pl 8) as [Hle|Hgt].
    - rewrite EPX. rewrite (idx_Some _ _ c).
      2: { rewrite (nth_error_nth' _ 0) by (rewrite stored_length; lia). f_equal. rewrite nth_stored by lia.
           fold W. apply nth_nth_error. rewrite <- Ec. f_equal. lia. }
      cbn [bind]. unfold slice_from. rewrite stored_length.
      replace (p + 1 <=? 8) with true by (symmetry; apply Nat.leb_le; lia). cbn [bind]. rewrite copy_pad8. cbn [bind].
      eexists. split; [reflexivity|]. apply pad8_ext; [apply pad8_length|]. intros i Hi. rewrite nth_pad8 by auto.
      rewrite nth_skipn. destruct (Nat.lt_ge_cases i (pl - (p + 1))).
      + rewrite nth_firstn by lia. rewrite nth_skipn. rewrite nth_stored by lia. f_equal. fold W. lia.
      + rewrite nth_firstn_ge by lia. symmetry. apply nth_overflow. lia.
    - specialize (HF Hgt). pose proof (is_prefix_length _ _ HF) as LF.
      rewrite (idx_Some _ _ c) by (rewrite (is_prefix_nth W fk) by (auto; lia); exact Ec). cbn [bind].
      rewrite slice_ok by lia. cbn [bind]. rewrite copy_pad8. cbn [bind]. eexists. split; [reflexivity|].
      unfold stored. f_equal. rewrite <- (path_slice W fk) by (auto; lia). f_equal; [lia|]. f_equal. lia. }
  destruct EQ as (tmp & EQ & Etmp). cbn [bind] in EQ |- *. rewrite EQ. cbn [bind]. clear EQ. subst tmp.
  assert (NC : aCh (with_pl a1 p) c = None).
  { cbn. unfold a1, put_entry. cbn [aW]. rewrite LX. destruct (nth_error key (depth + p)) as [b|] eqn:Eb; [|reflexivity].
    cbn. rewrite cset_ne by congruence. reflexivity. }
  assert (Cn : nchild nn2 = nchild nn0) by reflexivity.
  assert (T2 : n_type nn2 = Node4) by exact T0.
  destruct (rep_insert _ _ _ R1 c (AN m)) as (nn3 & E3 & T3 & R3); auto.
  { exact I. }
  { unfold isFull. rewrite T2. f_equal. apply Nat.eqb_neq. pose proof (nr_layout _ _ _ R1) as (L1 & _).
    rewrite L1, Cn. rewrite Nat.mod_small by lia. lia. }
  cbn [conv] in E3. rewrite E3. cbn [bind]. do 2 eexists. split; [reflexivity|]. split; [|split].
  - replace (pl - (p + 1)) with (pl - p - 1) by lia. apply nrep_prefix; auto. fold W. lia.
  - unfold no_entry, split_node. cbn [aW aLeaf aCh]. rewrite SD. fold W Wx. rewrite LX.
    destruct (nth_error key (depth + p)) as [b|] eqn:Eb; [|reflexivity].
    rewrite (nth_nth_error _ _ 0 _ Ec). rewrite cset_ne by congruence. reflexivity.
  - apply nrep_promote.
    + eapply nrep_ext; [exact R3|..].
      * unfold put_entry, split_node. cbn [aW]. rewrite SD. fold W Wx. destruct (nth_error key (length Wx)); cbn; auto.
      * unfold put_entry, split_node. cbn [aW]. rewrite SD. fold W Wx. destruct (nth_error key (length Wx)); cbn; auto.
      * unfold put_entry, split_node, a1. cbn [aW]. rewrite SD. fold W Wx. unfold put_entry. cbn [aW]. destruct (nth_error key (length Wx)); cbn; auto.
      * intros b'. unfold put_entry, split_node, a1. cbn [aW]. rewrite SD. fold W Wx. unfold put_entry. cbn [aW]. rewrite LX.
        rewrite (nth_nth_error _ _ 0 _ Ec).
        destruct (nth_error key (depth + p)) as [b|] eqn:Eb; cbn; auto. unfold cset.
        destruct (Nat.eqb_spec b' b) as [Q1|]; destruct (Nat.eqb_spec b c); destruct (Nat.eqb_spec b' c); congruence.
    + assert (X : nchild nn3 = S (nchild nn0)).
      { rewrite <- Cn. rewrite (nrep_count _ _ _ R3), (nrep_count _ _ _ R1).
        symmetry. symmetry. apply (cnt_set _ _ c); auto.
        - now rewrite NC.
        - cbn. rewrite cset_eq. reflexivity.
        - intros i _ Hi. cbn. rewrite cset_ne by auto. reflexivity. }
      rewrite X.
      assert (aLeaf (put_entry (split_node m am p) key v) = aLeaf a1) as ->.
      { unfold put_entry, split_node, a1. cbn [aW]. rewrite SD. fold W Wx. unfold put_entry. cbn [aW]. destruct (nth_error key (length Wx)); reflexivity. }
      lia.
Qed.

(** ** compressChild's prefix arithmetic *)
Lemma copy_at_spec (dst src : bytes) i : i + length src <= length dst ->
  exists l, copy_at dst i src = Ok l /\ length l = length dst /\
    forall q, nth q l 0 = if Nat.ltb q i then nth q dst 0
                          else if Nat.ltb q (i + length src) then nth (q - i) src 0 else nth q dst 0.
Proof.
  intros H. unfold copy_at. replace (Nat.leb i (length dst)) with true by (symmetry; apply Nat.leb_le; lia).
  rewrite Nat.min_r by lia. eexists. split; [reflexivity|]. rewrite firstn_all. split.
  - rewrite !app_length, firstn_length, skipn_length. lia.
  - intros q. destruct (Nat.ltb_spec q i).
    + rewrite app_nth1 by (rewrite firstn_length; lia). apply nth_firstn. lia.
    + rewrite app_nth2 by (rewrite firstn_length; lia). rewrite firstn_length, Nat.min_l by lia.
      destruct (Nat.ltb_spec q (i + length src)).
      * now rewrite app_nth1 by lia.
      * rewrite app_nth2 by lia. rewrite nth_skipn. f_equal. lia.
Qed.

Lemma merge_spec rx nx ax rm nm am i c0 : nrep rx nx ax -> nrep rm nm am ->
  nth_error (n_keys nx) i = Some c0 ->
  is_prefix (aW ax ++ [c0]) (aW am) -> length (aW am) = length (aW ax) + 1 + aPL am ->
  exists pre tmp, mergePrefix nx nm i = Ok (pre, tmp, aPL am + (aPL ax + 1)) /\ length pre = 8 /\
    nrep rm (set_plen (set_prefix nm tmp) (aPL am + (aPL ax + 1))) (with_pl am (aPL am + (aPL ax + 1))).
Proof.
  intros Rx Rm Hi HP HL.
  pose proof (nr_plen _ _ _ Rx) as E1. pose proof (nr_prefix _ _ _ Rx) as E2. pose proof (nr_pl _ _ _ Rx) as H1.
  pose proof (nr_plen _ _ _ Rm) as E3. pose proof (nr_prefix _ _ _ Rm) as E4. pose proof (nr_pl _ _ _ Rm) as H2.
  set (pl := aPL ax) in *. set (ml := aPL am) in *. set (W := aW am) in *.
  assert (HX : forall q, q < length (aW ax) -> nth q W 0 = nth q (aW ax) 0).
  { intros q Hq. destruct HP as [z ->]. rewrite <- app_assoc. now rewrite app_nth1 by lia. }
  assert (HC : nth (length (aW ax)) W 0 = c0).
  { destruct HP as [z ->]. rewrite <- app_assoc. rewrite app_nth2 by lia. now rewrite Nat.sub_diag. }
  set (B := length (aW ax) - pl) in *.
  assert (HB : length W - (ml + (pl + 1)) = B) by (unfold B; lia).
  unfold mergePrefix. rewrite E1, E2, E3, E4. unfold maxPrefixLen.
  (* first step *)
  assert (S1 : exists pre1 p1, (if Nat.ltb pl 8 then
       k <- idx (n_keys nx) i ;; pre <- upd (stored (aW ax) pl) pl k ;; Ok (pre, pl + 1)
     else Ok (stored (aW ax) pl, pl)) = Ok (pre1, p1) /\ length pre1 = 8 /\
     (p1 = pl + 1 /\ pl < 8 \/ p1 = pl /\ 8 <= pl) /\ (forall q, q < 8 -> q < p1 -> nth q pre1 0 = nth (B + q) W 0)).
  { destruct (Nat.ltb_spec pl 8) as [Hlt|Hge].
    - rewrite (idx_Some _ _ _ Hi). cbn [bind]. unfold upd. rewrite stored_length.
      replace (Nat.ltb pl 8) with true by (symmetry; apply Nat.ltb_lt; lia). cbn [bind].
      do 2 eexists. split; [reflexivity|]. split; [rewrite set_nth_length; apply stored_length|]. split; [lia|].
      intros q Hq8 Hq. rewrite nth_set_nth. rewrite stored_length. destruct (Nat.eqb_spec pl q) as [Epq|Hne]; cbn [andb].
      + replace (Nat.ltb pl 8) with true by (symmetry; apply Nat.ltb_lt; lia).
        rewrite <- HC. f_equal. unfold B. lia.
      + rewrite nth_stored by lia. fold B. rewrite HX by (unfold B; lia). reflexivity.
    - do 2 eexists. split; [reflexivity|]. split; [apply stored_length|]. split; [lia|].
      intros q Hq8 Hq. rewrite nth_stored by lia. fold B. rewrite HX by (unfold B; lia). reflexivity. }
  destruct S1 as (pre1 & p1 & S1 & L1 & Hp1 & N1). cbn [bind] in S1 |- *. rewrite S1. cbn [bind]. clear S1.
  assert (S2 : exists pre2 p2, (if Nat.ltb p1 8 then
       let sub := Nat.min ml (8 - p1) in
       src <- slice (stored W ml) 0 sub ;; pre2 <- copy_at pre1 p1 src ;; Ok (pre2, p1 + sub)
     else Ok (pre1, p1)) = Ok (pre2, p2) /\ length pre2 = 8 /\
     (forall q, q < 8 -> q < p2 -> nth q pre2 0 = nth (B + q) W 0) /\
     (forall q, q < 8 -> p2 <= q -> nth (B + q) W 0 = 0)).
  { destruct (Nat.ltb_spec p1 8) as [Hlt|Hge].
    - cbv zeta. rewrite slice_ok by (try rewrite stored_length; lia). cbn [bind]. rewrite Nat.sub_0_r. cbn [skipn].
      set (src := firstn (Nat.min ml (8 - p1)) (stored W ml)).
      assert (LS : length src = Nat.min ml (8 - p1)) by (unfold src; rewrite firstn_length, stored_length; lia).
      destruct (copy_at_spec pre1 src p1) as (pre2 & EC & L2 & N2); [lia|].
      rewrite EC. cbn [bind]. do 2 eexists. split; [reflexivity|]. split; [lia|]. rewrite LS in N2. split.
      + intros q Hq8 Hq. rewrite N2. destruct (Nat.ltb_spec q p1); [apply N1; lia|].
        replace (q <? p1 + Nat.min ml (8 - p1)) with true by (symmetry; apply Nat.ltb_lt; lia).
        unfold src. rewrite nth_firstn by lia. rewrite nth_stored by lia. f_equal. unfold B. lia.
      + intros q Hq8 Hq. apply nth_overflow. unfold B. lia.
    - do 2 eexists. split; [reflexivity|]. split; [auto|]. split; [auto|]. intros q Hq8 Hq. lia. }
  destruct S2 as (pre2 & p2 & S2 & L2 & N2 & Z2). cbn [bind] in S2 |- *. cbv zeta in S2 |- *. rewrite S2. cbn [bind]. clear S2.
  rewrite slice_ok by lia. cbn [bind]. rewrite copy_pad8. cbn [bind].
  do 2 eexists. split; [reflexivity|]. split; [auto|].
  match goal with |- nrep _ (set_plen (set_prefix nm ?t) ?n) _ =>
    change (set_plen (set_prefix nm t) n) with (set_prefix (set_plen nm n) t) end.
  apply nrep_prefix; auto; [fold W; lia|]. fold W. apply pad8_ext; [apply pad8_length|].
  intros q Hq. rewrite nth_pad8 by auto. rewrite nth_skipn, HB. rewrite Nat.sub_0_r. cbn [skipn].
  destruct (Nat.lt_ge_cases q (Nat.min p2 8)).
  - rewrite nth_firstn by lia. apply N2; lia.
  - rewrite nth_firstn_ge by lia. symmetry. apply Z2; lia.
Qed.
