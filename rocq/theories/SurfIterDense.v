(** * The dense iterator walks the paths of the trie. *)
From Coq Require Import Sorted.
From Verif Require Import Base BitsModel BitsFacts VecModel VecProofs VecProofs2 SurfModel SurfTrie SurfSuffix SurfBuild SurfDense SurfEnc SurfBuildTop SurfGet SurfGet2 SurfSpec SurfWalk SurfTop SurfIter SurfIterPath.
Ltac Zify.zify_post_hook ::= Z.div_mod_to_equations.

Lemma bits_item (f : item -> bool) j its : existsb (fun it => f it && Nat.eqb (i_label it) j) its = true <->
  exists x, In x its /\ f x = true /\ i_label x = j.
Proof.
  rewrite existsb_exists. split; intros (x & H1 & H2); exists x.
  - apply andb_prop in H2 as [H2 H3]. apply Nat.eqb_eq in H3. auto.
  - destruct H2 as [-> ->]. rewrite Nat.eqb_refl. auto.
Qed.

Section Bits.
Variable fp : bytes -> N.
Variable c : config.
Variables (ld : loudsDense) (h : nat) (D1 D2 : list tnode) (n : tnode).
Hypothesis R : ld_rep fp c ld h (D1 ++ n :: D2).
Hypothesis W : Forall nwf (D1 ++ n :: D2).
Notation BITS := (flat_map (fun m => dlab (items m)) (D1 ++ n :: D2)).
Notation base := (length D1 * 256).

Lemma lbit_true j : j < 256 -> nth (base + j) BITS false = true <-> exists x, In x (items n) /\ i_term x = false /\ i_label x = j.
Proof.
  intros L. rewrite (row_read D1 D2 n (fun m => dlab (items m)) j) by (auto using dlab_length). unfold dlab. rewrite nth_map_seq by auto.
  rewrite (bits_item noterm). unfold noterm. split; intros (x & H1 & H2 & H3); exists x; repeat split; auto; now destruct (i_term x).
Qed.
Lemma lbit_false j : j < 256 -> (forall x, In x (items n) -> i_term x = false -> i_label x <> j) -> nth (base + j) BITS false = false.
Proof.
  intros L H. destruct (nth (base + j) BITS false) eqn:E; auto. apply lbit_true in E as (x & H1 & H2 & H3); auto. exfalso. now apply (H x).
Qed.
Lemma bits_len : length BITS = length (D1 ++ n :: D2) * 256.
Proof. apply row_len. intros; apply dlab_length. Qed.
Lemma bits_len_n : base + 256 <= length BITS.
Proof. rewrite bits_len, app_length. cbn [length]. lia. Qed.
Lemma label_bv : bv_rep (rv_bv (ld_label ld)) BITS.
Proof. apply (ldr_label _ _ _ _ _ R). Qed.
Lemma bWn : nwf n.
Proof. apply Forall_app in W as [_ W']. now inversion W'. Qed.

Lemma items_label x : In x (items n) -> i_label x < 256.
Proof. apply label_byte. apply bWn. Qed.

Lemma next_pos_at b p : In b (items n) -> i_term b = false -> base <= p + 1 -> p < base + i_label b ->
  (forall x, In x (items n) -> i_term x = false -> base + i_label x <= p \/ i_label b <= i_label x) ->
  ld_nextPos ld p = Ok (base + i_label b).
Proof.
  intros Hb T H1 H2 HA. unfold ld_nextPos. pose proof bits_len_n. pose proof (items_label b Hb).
  destruct (distanceToNextSetBit_correct _ _ p label_bv) as (d & -> & D); [lia|]. cbn [bind].
  assert (BT : nth (base + i_label b) BITS false = true) by (apply lbit_true; eauto).
  destruct D as [(q & (N1 & N2 & N3) & ->)|(N & _)].
  - f_equal. destruct (Nat.lt_trichotomy q (base + i_label b)) as [L|[L|L]]; [|lia|].
    + exfalso. replace q with (base + (q - base)) in N2 by lia. apply lbit_true in N2 as (x & X1 & X2 & X3); [|lia].
      destruct (HA x X1 X2); lia.
    + rewrite N3 in BT by lia. discriminate.
  - rewrite N in BT by lia. discriminate.
Qed.

Lemma next_pos_none k : k < 256 -> (forall x, In x (items n) -> i_term x = false -> i_label x <= k) ->
  exists np, ld_nextPos ld (base + k) = Ok np /\ Nat.eqb (base + k) np || Nat.ltb ((base + k) / 256) (np / 256) = true.
Proof.
  intros L H. unfold ld_nextPos. pose proof bits_len_n. pose proof bits_len as BL.
  destruct (distanceToNextSetBit_correct _ _ (base + k) label_bv) as (d & -> & D); [lia|]. cbn [bind]. eexists. split; [reflexivity|].
  destruct D as [(q & (N1 & N2 & N3) & ->)|(N & ->)].
  - apply orb_true_iff. right. apply Nat.ltb_lt. destruct (Nat.lt_ge_cases q (base + 256)) as [Lq|Lq]; [|lia].
    exfalso. replace q with (base + (q - base)) in N2 by lia. apply lbit_true in N2 as (x & X1 & X2 & X3); [|lia]. specialize (H x X1 X2). lia.
  - apply orb_true_iff. match goal with |- context [if ?b then _ else _] => destruct b end; [left; apply Nat.eqb_eq; lia|].
    right. apply Nat.ltb_lt. lia.
Qed.

Lemma next_pos_some k b : k < 256 -> In b (items n) -> i_term b = false -> k < i_label b ->
  (forall x, In x (items n) -> i_term x = false -> i_label x <= k \/ i_label b <= i_label x) ->
  ld_nextPos ld (base + k) = Ok (base + i_label b) /\ Nat.eqb (base + k) (base + i_label b) || Nat.ltb ((base + k) / 256) ((base + i_label b) / 256) = false.
Proof.
  intros L Hb T Lk HA. pose proof (items_label b Hb). split.
  - apply next_pos_at; auto; try lia. intros x X1 X2. destruct (HA x X1 X2); [left|right]; lia.
  - apply orb_false_iff. split; [apply Nat.eqb_neq; lia|apply Nat.ltb_ge; lia].
Qed.

Lemma prev_pos_at b p : In b (items n) -> i_term b = false -> p <= base + 256 -> base + i_label b < p ->
  (forall x, In x (items n) -> i_term x = false -> i_label x <= i_label b \/ p <= base + i_label x) ->
  ld_prevPos ld p = Ok (if Nat.eqb (base + i_label b) 0 then None else Some (base + i_label b)).
Proof.
  intros Hb T H1 H2 HA. unfold ld_prevPos. pose proof bits_len_n. pose proof (items_label b Hb).
  destruct (distanceToPrevSetBit_correct _ _ p label_bv) as (d & -> & D); [lia|]. cbn [bind].
  assert (BT : nth (base + i_label b) BITS false = true) by (apply lbit_true; eauto).
  destruct D as [(q & (N1 & N2 & N3) & ->)|(N & _)].
  - assert (q = base + i_label b); [|subst q].
    { destruct (Nat.lt_trichotomy q (base + i_label b)) as [L|[L|L]]; [|lia|].
      + rewrite N3 in BT by lia. discriminate.
      + exfalso. replace q with (base + (q - base)) in N2 by lia. apply lbit_true in N2 as (x & X1 & X2 & X3); [|lia].
        destruct (HA x X1 X2); lia. }
    f_equal. destruct (Nat.eqb_spec (base + i_label b) 0) as [E0|E0].
    + destruct (Nat.leb_spec p (p - (base + i_label b))); [reflexivity|lia].
    + destruct (Nat.leb_spec p (p - (base + i_label b))); [lia|]. f_equal. lia.
  - rewrite N in BT by lia. discriminate.
Qed.

(** No item before label [k] in the node, but a set bit in some earlier node. *)
Lemma prev_pos_none k m x : k < 256 -> (forall x, In x (items n) -> i_term x = false -> k <= i_label x) ->
  In m D1 -> In x (items m) -> i_term x = false -> (hd_error D1 = Some m -> 0 < i_label x) ->
  exists q, ld_prevPos ld (base + k) = Ok (Some q) /\ Nat.ltb (q / 256) ((base + k) / 256) = true.
Proof.
  intros L H Hm Hx T Z. unfold ld_prevPos. pose proof bits_len_n. pose proof bits_len as BL.
  destruct (distanceToPrevSetBit_correct _ _ (base + k) label_bv) as (d & -> & D); [lia|]. cbn [bind].
  apply in_split in Hm as (E1 & E2 & ED).
  assert (BT : nth (length E1 * 256 + i_label x) BITS false = true).
  { rewrite ED, <- app_assoc. cbn [app]. rewrite (row_read E1 (E2 ++ n :: D2) m (fun m => dlab (items m))).
    - unfold dlab. assert (LX : i_label x < 256). { apply (label_byte m); auto. apply Forall_app in W as [W1 _]. rewrite Forall_forall in W1. apply W1. rewrite ED. apply in_or_app. right. now left. }
      rewrite nth_map_seq by auto. apply (bits_item noterm). exists x. unfold noterm. rewrite T. auto.
    - intros; apply dlab_length.
    - apply (label_byte m); auto. apply Forall_app in W as [W1 _]. rewrite Forall_forall in W1. apply W1. rewrite ED. apply in_or_app. right. now left. }
  assert (LX : i_label x < 256). { apply (label_byte m); auto. apply Forall_app in W as [W1 _]. rewrite Forall_forall in W1. apply W1. rewrite ED. apply in_or_app. right. now left. }
  assert (LD : length D1 = length E1 + S (length E2)) by (rewrite ED, app_length; reflexivity).
  assert (PZ : 0 < length E1 * 256 + i_label x). { destruct E1; [cbn [length]; rewrite Nat.mul_0_l; apply Z; now rewrite ED|cbn [length]; lia]. }
  destruct D as [(q & (N1 & N2 & N3) & ->)|(N & _)].
  - exists q. assert (LQ : length E1 * 256 + i_label x <= q).
    { destruct (Nat.lt_ge_cases q (length E1 * 256 + i_label x)); auto. rewrite N3 in BT by lia. discriminate. }
    destruct (Nat.leb_spec (base + k) (base + k - q)); [lia|]. split; [f_equal; f_equal; lia|].
    apply Nat.ltb_lt. destruct (Nat.lt_ge_cases q base) as [Lq|Lq]; [lia|].
    exfalso. replace q with (base + (q - base)) in N2 by lia. apply lbit_true in N2 as (y & X1 & X2 & X3); [|lia]. specialize (H y X1 X2). lia.
  - rewrite N in BT by lia. discriminate.
Qed.

Lemma hasc_bit b : In b (items n) -> i_term b = false -> rv_isSet (ld_hasChild ld) (base + i_label b) = Ok (hasc b).
Proof.
  intros Hb T. rewrite (d_hasc fp c ld h D1 D2 n R) by (now apply items_label). f_equal.
  pose proof (nodup_noterm n bWn) as ND.
  destruct (hasc b) eqn:HB.
  - apply existsb_exists. exists b. unfold noterm. rewrite T, HB, Nat.eqb_refl. auto.
  - destruct (existsb _ _) eqn:E; auto. apply existsb_exists in E as (x & X1 & X2). apply andb_prop in X2 as [X2 X3]. apply andb_prop in X2 as [X2 X4].
    apply Nat.eqb_eq in X3. assert (x = b); [|congruence].
    assert (I1 : In x (filter noterm (items n))) by (apply filter_In; auto).
    assert (I2 : In b (filter noterm (items n))) by (apply filter_In; unfold noterm; rewrite T; auto).
    clear -ND I1 I2 X3. induction (filter noterm (items n)) as [|y l IH]; [destruct I1|]. cbn [map] in ND. inversion ND; subst.
    destruct I1 as [<-|I1], I2 as [<-|I2]; auto.
    + exfalso. apply H1. rewrite X3. now apply in_map.
    + exfalso. apply H1. rewrite <- X3. now apply in_map.
Qed.

Lemma prefix_at : getPrefix (ld_prefix ld) (length D1) = Ok (nprefix n).
Proof.
  rewrite (getPrefix_correct _ _ _ (ldr_pre _ _ _ _ _ R)).
  - f_equal. rewrite map_app. cbn [map]. rewrite app_nth2 by (rewrite map_length; lia). rewrite map_length, Nat.sub_diag. reflexivity.
  - rewrite map_length, app_length. cbn [length]. lia.
Qed.

Lemma prev_pos_root k : k < 256 -> D1 = [] -> (forall x, In x (items n) -> i_term x = false -> k <= i_label x) -> ld_prevPos ld (base + k) = Ok None.
Proof.
  intros L E H. unfold ld_prevPos. pose proof bits_len_n.
  destruct (distanceToPrevSetBit_correct _ _ (base + k) label_bv) as (d & -> & D); [lia|]. cbn [bind].
  assert (B0 : base = 0) by now rewrite E. 
  destruct D as [(q & (N1 & N2 & _) & ->)|(_ & ->)].
  - exfalso. replace q with (base + q) in N2 by lia. apply lbit_true in N2 as (y & X1 & X2 & X3); [|lia]. specialize (H y X1 X2). lia.
  - destruct (Nat.leb_spec (base + k) (base + k + 1)); [reflexivity|lia].
Qed.

(** The value position of a terminator, read at the first labelled item. *)
Lemma d_suffixPos_term1 t b B : items n = t :: b :: B -> i_term t = true ->
  ld_suffixPos ld (base + i_label b) true = Ok (length (filter leafb (flat_map items D1))).
Proof.
  intros E T. pose proof (tail_noterm n _ _ E) as TN. inversion TN as [|? ? TB _]; subst.
  assert (LB : i_label b < 256) by (apply items_label; rewrite E; right; left; auto).
  unfold ld_suffixPos. rewrite (d_rank_label fp c ld h D1 D2 n R W [t] b B E TB), (d_rank_hasc fp c ld h D1 D2 n R W [t] b B E TB). cbn [bind].
  replace ((base + i_label b) / 256) with (length D1) by (rewrite Nat.add_comm, Nat.div_add, Nat.div_small by lia; lia).
  rewrite (d_rank_isp fp c ld h D1 D2 n R W). cbn [bind]. pose proof (d_sum D1 D2 n [t] b B E TB) as S.
  assert (HT : hasc t = false).
  { destruct (hasc t) eqn:X; auto. rewrite (item_hasc_noterm n t) in T; auto. rewrite E. left. auto. }
  assert (L1 : length (filter leafb (flat_map items D1 ++ [t] ++ [b])) = length (filter leafb (flat_map items D1)) + 1 + (if hasc b then 0 else 1)).
  { rewrite filter_app, app_length. cbn [app filter]. unfold leafb at 2 3. rewrite HT. cbn [negb]. destruct (hasc b); cbn [negb length]; lia. }
  assert (DL : rv_isSet (ld_label ld) (base + i_label b) = Ok true).
  { rewrite (d_label fp c ld h D1 D2 n R) by auto. f_equal. apply (bits_item noterm). exists b. unfold noterm. rewrite TB, E. cbn; auto. }
  rewrite DL, (hasc_bit b) by (auto; rewrite E; right; left; auto).
  unfold sub_chk at 1. match goal with |- bind (if Nat.leb ?a ?b then _ else _) _ = _ => destruct (Nat.leb_spec a b); [|lia] end. cbn [bind].
  destruct (hasc b); cbn [andb negb]; unfold sub_chk.
  - f_equal. lia.
  - match goal with |- (if Nat.leb ?a ?b then _ else _) = _ => destruct (Nat.leb_spec a b); [|lia] end. f_equal. lia.
Qed.
End Bits.

Lemma items_order n A it B : nwf n -> items n = A ++ it :: B -> i_term it = false ->
  (forall x, In x A -> i_term x = false -> i_label x < i_label it) /\
  (forall x, In x B -> i_term x = false /\ i_label it < i_label x).
Proof.
  intros W E T. pose proof (labels_sorted n W) as S. rewrite E, filter_app in S. cbn [filter] in S. unfold noterm at 2 in S. rewrite T in S. cbn [negb] in S.
  assert (TB : forall x, In x B -> i_term x = false).
  { intros x Hx. destruct A as [|a A]; cbn [app] in E; pose proof (tail_noterm n _ _ E) as F; rewrite Forall_forall in F; apply F; auto.
    apply in_or_app. right. now right. }
  rewrite map_app in S. cbn [map] in S. split.
  - intros x Hx Tx. assert (G : forall l m r, StronglySorted lt (l ++ m :: r) -> forall y, In y l -> y < m).
    { induction l as [|a l IH]; intros m r Hs y Hy; [destruct Hy|]. cbn [app] in Hs. inversion Hs; subst. destruct Hy as [<-|Hy]; [|eapply IH; eauto].
      rewrite Forall_forall in H2. apply H2. apply in_or_app. right. now left. }
    eapply G; [exact S|]. apply in_map. apply filter_In. split; auto. unfold noterm. now rewrite Tx.
  - intros x Hx. split; auto. assert (G : forall l m r, StronglySorted lt (l ++ m :: r) -> forall y, In y r -> m < y).
    { induction l as [|a l IH]; intros m r Hs y Hy; cbn [app] in Hs; inversion Hs; subst; [|eapply IH; eauto]. rewrite Forall_forall in H2. now apply H2. }
    eapply G; [exact S|]. apply in_map. apply filter_In. split; auto. unfold noterm. now rewrite (TB x Hx).
Qed.

Lemma set_nth_same {A} (l : list A) : forall i x, i < length l -> nth_error (set_nth l i x) i = Some x.
Proof. induction l as [|a l IH]; intros i x H; cbn [length] in H; [lia|]. destruct i; [reflexivity|]. cbn [set_nth nth_error]. apply IH. lia. Qed.
Lemma set_nth_other {A} (l : list A) : forall i j x, i <> j -> nth_error (set_nth l i x) j = nth_error l j.
Proof. induction l as [|a l IH]; intros i j x H; [reflexivity|]. destruct i, j; cbn [set_nth nth_error]; auto; [congruence]. Qed.
Lemma set_nth_len {A} (l : list A) : forall i x, length (set_nth l i x) = length l.
Proof. induction l as [|a l IH]; intros i x; [reflexivity|]. destruct i; cbn [set_nth length]; auto. Qed.
Lemma upd_in {A} (l : list A) i x : i < length l -> upd l i x = Ok (set_nth l i x).
Proof. intros H. apply upd_Ok. auto. Qed.
Lemma slice_prefix (a b : bytes) : is_prefix a b -> slice b 0 (length a) = Ok a.
Proof.
  intros (x & ->). unfold slice. rewrite app_length. destruct (Nat.leb_spec (length a) (length a + length x)); [|lia]. cbn [andb Nat.leb skipn].
  rewrite Nat.sub_0_r, firstn_app, firstn_all, Nat.sub_diag. cbn [firstn]. now rewrite app_nil_r.
Qed.

Lemma last_split (l : list item) : l = [] \/ exists A x, l = A ++ [x].
Proof. destruct (rev l) as [|x A] eqn:E; [left|right; exists (rev A), x]; rewrite <- (rev_involutive l), E; reflexivity. Qed.

Lemma before_item n A it B : items n = A ++ it :: B ->
  A = [] \/ (exists t, A = [t] /\ i_term t = true) \/ (exists A' x, A = A' ++ [x] /\ i_term x = false).
Proof.
  intros E. destruct (last_split A) as [->|(A' & x & ->)]; [now left|right]. destruct (i_term x) eqn:T; [left|right; eauto].
  destruct A' as [|a A']; [exists x; auto|]. exfalso. cbn [app] in E. pose proof (tail_noterm n _ _ E) as F. rewrite Forall_forall in F.
  rewrite (F x) in T; [discriminate|]. apply in_or_app. left. apply in_or_app. right. now left.
Qed.

Section Walk.
Variable fp : bytes -> N.
Variable c : config.
Variables (NSS : list (list tnode)) (h : nat) (s : surf) (kvs : list kv).
Hypothesis SR : surf_rep fp c NSS h s.
Hypothesis RT : nth_error NSS 0 = Some [mknode kvs 0].
Notation ld := (s_ld s).
Notation nid := (nid NSS).
Notation topn := (topn kvs).
Notation pok := (pok kvs).

Lemma dw_linked : linked NSS. Proof. apply SR. Qed.
Lemma dw_wf : Forall nwf (concat NSS). Proof. apply SR. Qed.

(** The dense nodes around a node, to use the lemmas above. *)
Lemma dense_at r P n : pok r -> topn r P n -> length r < h ->
  exists D1 D2, concat (firstn h NSS) = D1 ++ n :: D2 /\ length D1 = nid (length r) P /\
    ld_rep fp c ld h (D1 ++ n :: D2) /\ Forall nwf (D1 ++ n :: D2) /\ D1 = concat (firstn (length r) NSS) ++ P.
Proof.
  intros PK T L. destruct (top_at NSS kvs dw_linked RT r PK P n T) as (Q & AT).
  pose proof (at_dense NSS h (length r) P n Q AT L) as E. eexists _, _. split; [exact E|]. split.
  - rewrite app_length. reflexivity.
  - rewrite <- E. split; [apply (sr_ld fp c NSS h s SR)|split; [apply (wf_dense fp c NSS h s SR)|reflexivity]].
Qed.

(** Slot contents *)
Definition tslot (ps pl : list nat) (r : list frame) (P : list tnode) (n : tnode) (k : nat) : Prop :=
  nth_error ps (length r) = Some (nid (length r) P * 256 + k) /\ nth_error pl (length r) = Some (tn_d n + 1).
Fixpoint dslots (ps pl : list nat) (r : list frame) : Prop :=
  match r with [] => True | f :: r => tslot ps pl r (f_P f) (f_n f) (flab f) /\ dslots ps pl r end.

Lemma dslots_set ps pl r i x : length r <= i -> dslots ps pl r -> dslots (set_nth ps i x) pl r.
Proof.
  induction r as [|f r IH]; intros L H; [exact I|]. cbn [length dslots] in *. destruct H as ((H1 & H2) & H). split; [|apply IH; auto; lia].
  split; auto. rewrite set_nth_other by lia. exact H1.
Qed.
Lemma dslots_setl ps pl r i x : length r <= i -> dslots ps pl r -> dslots ps (set_nth pl i x) r.
Proof.
  induction r as [|f r IH]; intros L H; [exact I|]. cbn [length dslots] in *. destruct H as ((H1 & H2) & H). split; [|apply IH; auto; lia].
  split; auto. rewrite set_nth_other by lia. exact H2.
Qed.

Record dlen (it : denseIter) : Prop := { dl_pos : length (d_pos it) = h; dl_plen : length (d_plen it) = h }.

Lemma append_spec it r P n k : pok r -> topn r P n -> length r < h -> dlen it -> dslots (d_pos it) (d_plen it) r ->
  d_level it = length r -> d_key it = npath n -> k < 256 ->
  exists ps pl, d_append ld it (nid (length r) P * 256 + k) = Ok (d_setKey (d_setPos it ps pl) (ndpath n ++ [k])) /\
    length ps = h /\ length pl = h /\ dslots ps pl r /\ tslot ps pl r P n k.
Proof.
  intros PK T L [L1 L2] DS LV KE Hk. destruct (dense_at r P n PK T L) as (D1 & D2 & _ & LD & R & W & _).
  pose proof (top_wf NSS kvs dw_linked dw_wf RT r P n PK T) as Wn. 
  unfold d_append. replace ((nid (length r) P * 256 + k) / 256) with (nid (length r) P) by lia.
  rewrite <- LD, (prefix_at fp c ld h D1 D2 n R). cbn [bind]. rewrite LV.
  rewrite (upd_in _ _ _ ltac:(rewrite L1; exact L)). cbn [bind].
  assert (B : (if Nat.eqb (length r) 0 then Ok 0 else idx (d_plen it) (length r - 1)) = Ok (tn_pd n)).
  { destruct r as [|g r].
    - destruct (root_npath kvs P n T) as [_ ->]. reflexivity.
    - destruct (top_npath NSS kvs dw_linked dw_wf RT r g P n PK T) as [_ ->]. cbn [length Nat.eqb]. cbn [dslots] in DS. destruct DS as ((_ & DS) & _).
      replace (S (length r) - 1) with (length r) by lia. now apply idx_Ok. }
  rewrite B. cbn [bind]. rewrite (upd_in _ _ _ ltac:(rewrite L2; exact L)). cbn [bind].
  eexists _, _. split; [|split; [|split; [|split]]].
  - replace ((length D1 * 256 + k) mod 256) with k by lia. rewrite KE, <- (nprefix_path n Wn), <- app_assoc. reflexivity.
  - now rewrite set_nth_len.
  - now rewrite set_nth_len.
  - apply dslots_set; [lia|]. apply dslots_setl; [lia|]. exact DS.
  - split; rewrite set_nth_same by lia; [now rewrite LD|]. f_equal.
    pose proof (nprefix_path n Wn) as NP. apply (f_equal (@length _)) in NP. rewrite app_length, (npath_length n Wn), (ndpath_length n Wn) in NP. lia.
Qed.

(** The iterator stands on the labelled item of the top frame. *)
Record DS (it : denseIter) (f : frame) (r : list frame) : Prop := {
  ds_level : d_level it = length r;
  ds_len : dlen it;
  ds_slots : dslots (d_pos it) (d_plen it) (f :: r);
  ds_key : d_key it = ndpath (f_n f) ++ [flab f];
  ds_noterm : i_term (f_it f) = false;
  ds_pok : pok (f :: r);
  ds_h : length r < h
}.

Definition dflags (it : denseIter) (s l r : bool) : Prop := d_valid it = true /\ d_search it = s /\ d_left it = l /\ d_right it = r.

(** A stop on a leaf, on a terminator (the frame is at the first labelled item), or at
    the last dense level on an item whose child is in the sparse part. *)
Inductive dstop (fl fr : bool) (it : denseIter) : list kv -> list kv -> list kv -> Prop :=
| dstop_leaf f r e : DS it f r -> hasc (f_it f) = false -> i_grp (f_it f) = [e] -> d_atPrefix it = false ->
    dflags it true true true -> dstop fl fr it (bef (f :: r)) [e] (aft (f :: r))
| dstop_term f r t e : DS it f r -> f_A f = [t] -> i_term t = true -> i_grp t = [e] -> d_atPrefix it = true ->
    dflags it true true true -> dstop fl fr it (bef r) [e] (i_grp (f_it f) ++ aft (f :: r))
| dstop_send f r : DS it f r -> S (length r) = h -> hasc (f_it f) = true -> d_atPrefix it = false ->
    dflags it true fl fr -> d_sendNode it = nid h (kids f) -> d_sendDepth it = length (d_key it) ->
    dstop fl fr it (bef (f :: r)) (i_grp (f_it f)) (aft (f :: r)).
(** After a move to the left / right most key: what is before / after it. *)
Definition dstopL (it : denseIter) (pre : list kv) : Prop := exists mid post, dstop false true it pre mid post.
Definition dstopR (it : denseIter) (post : list kv) : Prop := exists pre mid, dstop true false it pre mid post.

Lemma dstop_kvs fl fr it pre mid post : dstop fl fr it pre mid post -> pre ++ mid ++ post = kvs.
Proof.
  intros [f r e D HC G _ _|f r t e D EA Tt G _ _|f r D _ HC _ _ _ _]; pose proof (ds_pok _ _ _ D) as PK; pose proof (bef_aft_it kvs f r PK) as E.
  - now rewrite <- G.
  - rewrite <- E. cbn [bef]. rewrite EA. cbn [map concat]. rewrite G. rewrite <- !app_assoc. reflexivity.
  - exact E.
Qed.

Lemma first_items n : nwf n -> 2 <= length (items n) ->
  (exists t b B, items n = t :: b :: B /\ i_term t = true /\ i_term b = false /\ nterm n = true /\ exists e, i_grp t = [e]) \/
  (exists b B, items n = b :: B /\ i_term b = false /\ nterm n = false).
Proof.
  intros W L. destruct (items n) as [|x [|y B]] eqn:E; cbn [length] in L; try lia. pose proof (tail_noterm n _ _ E) as TN. inversion TN; subst.
  unfold nterm. rewrite E. cbn [existsb]. rewrite H1.
  assert (existsb i_term B = false). { destruct (existsb i_term B) eqn:Ex; auto. apply existsb_exists in Ex as (z & Hz & Tz). rewrite Forall_forall in H2. rewrite (H2 z Hz) in Tz. discriminate. }
  destruct (i_term x) eqn:Tx.
  - left. exists x, y, B. repeat split; auto. apply (item_leaf n x); [rewrite E; now left|]. destruct (hasc x) eqn:HX; auto. rewrite (item_hasc_noterm n x) in Tx; auto. rewrite E. now left.
  - right. exists x, (y :: B). rewrite H. auto.
Qed.

Lemma child_id it f r P n : DS it f r -> topn (f :: r) P n ->
  ld_childNodeID ld (nid (length r) (f_P f) * 256 + flab f) = Ok (nid (S (length r)) P).
Proof.
  intros D T. pose proof (ds_pok _ _ _ D) as PK. pose proof PK as (PK1 & T1 & EI). destruct (dense_at r _ _ PK1 T1 (ds_h _ _ _ D)) as (D1 & D2 & _ & LD & R & W & ED).
  rewrite <- LD. unfold flab. destruct T as (HC & EN & EP). rewrite (d_childID fp c ld h D1 D2 (f_n f) R W _ _ _ EI (ds_noterm _ _ _ D) HC).
  rewrite (top_nid NSS kvs dw_linked RT r f P n PK (conj HC (conj EN EP))). now rewrite ED.
Qed.

Lemma nid_pos l P : nid (S l) P <> 0.
Proof.
  unfold SurfGet2.nid. destruct NSS as [|L N]; [discriminate|]. cbn [nth_error] in RT. inversion RT. subst L. cbn [firstn concat app length]. lia.
Qed.

Lemma left_loop todo : forall it f r, DS it f r -> hasc (f_it f) = true -> d_atPrefix it = false -> S (length r) + todo = h ->
  exists it', d_left_loop todo ld it (nid (length r) (f_P f) * 256 + flab f) = Ok it' /\ dstopL it' (bef (f :: r)).
Proof.
  induction todo as [|todo IH]; intros it f r D HC AP Ht.
  - cbn [d_left_loop]. assert (T : topn (f :: r) (kids f) (mkchild (f_it f))) by (repeat split; auto).
    rewrite (child_id it f r _ _ D T). cbn [bind]. eexists. split; [reflexivity|].
    replace (S (length r)) with h by lia. eexists _, _; apply (dstop_send _ _ _ f r); try reflexivity; auto; [|lia|repeat split].
    destruct D as [? [? ?] ? ? ? ? ?]. constructor; auto. constructor; auto.
  - cbn [d_left_loop]. set (n := mkchild (f_it f)). assert (T : topn (f :: r) (kids f) n) by (repeat split; auto).
    rewrite (child_id it f r _ _ D T). cbn [bind]. pose proof (ds_pok _ _ _ D) as PK.
    destruct (dense_at (f :: r) _ _ PK T) as (D1 & D2 & _ & LD & R & W & _). { cbn [length]. lia. } cbn [length] in LD.
    pose proof (top_wf NSS kvs dw_linked dw_wf RT _ _ _ PK T) as Wn.
    pose proof (top_two NSS kvs dw_linked dw_wf RT _ _ _ PK T ltac:(discriminate)) as TW.
    rewrite <- LD, (d_isPrefix fp c ld h D1 D2 n R). cbn [bind].
    assert (NZ : length D1 <> 0) by (rewrite LD; apply nid_pos).
    unfold sub_chk. destruct (Nat.leb_spec 1 (length D1 * 256)) as [_|]; [|lia]. cbn [bind].
    destruct (top_npath NSS kvs dw_linked dw_wf RT _ _ _ _ PK T) as [NP _].
    assert (FB : exists A b B, items n = A ++ b :: B /\ i_term b = false /\ (forall x, In x A -> i_term x = true) /\
      ((exists t e, A = [t] /\ i_term t = true /\ i_grp t = [e] /\ nterm n = true) \/ (A = [] /\ nterm n = false))).
    { destruct (first_items n Wn TW) as [(t & b & B & E & Tt & Tb & NT & e & G)|(b & B & E & Tb & NT)].
      - exists [t], b, B. split; auto. split; auto. split; [intros x [<-|[]]; auto|]. left. eauto 6.
      - exists [], b, B. repeat split; auto. }
    destruct FB as (A & b & B & EI & Tb & TA & CASES). destruct (items_order n A b B Wn EI Tb) as [OA OB].
    assert (Ib : In b (items n)) by (rewrite EI; apply in_or_app; right; now left).
    rewrite (next_pos_at fp c ld h D1 D2 n R W b); auto; try lia.
    2:{ intros x Hx Tx. right. rewrite EI in Hx. apply in_app_or in Hx as [Hx|[<-|Hx]]; [|lia|destruct (OB x Hx); lia]. rewrite (TA x Hx) in Tx. discriminate. }
    cbn [bind]. rewrite LD.
    assert (LB : i_label b < 256) by (now apply (label_byte n)).
    destruct (append_spec (d_setLevel it (S (d_level it))) (f :: r) (kids f) n (i_label b)) as (ps & pl & E & L1 & L2 & S1 & S2); auto.
    { cbn [length]. lia. } { destruct (ds_len _ _ _ D). constructor; auto. } { apply (ds_slots _ _ _ D). } { cbn. now rewrite (ds_level _ _ _ D). }
    { cbn [d_setLevel d_key]. rewrite (ds_key _ _ _ D). auto. }
    cbn [length] in E. rewrite E. cbn [bind].
    set (it2 := d_setKey (d_setPos (d_setLevel it (S (d_level it))) ps pl) (ndpath n ++ [i_label b])).
    set (f2 := mkF (kids f) n A b B).
    assert (D2' : DS it2 f2 (f :: r)).
    { constructor; cbn [it2 f2 d_setKey d_setPos d_setLevel d_level d_pos d_plen d_key f_it f_n]; auto.
      - cbn [length]. now rewrite (ds_level _ _ _ D).
      - constructor; auto.
      - cbn [dslots]. split; auto.
      - cbn [SurfIterPath.pok f_P f_n f_A f_it f_B]. split; auto.
      - cbn [length]. lia. }
    destruct CASES as [(t & e & -> & Tt & Gt & NT)|(-> & NT)]; rewrite NT.
    + eexists. split; [reflexivity|]. eexists _, _; apply (dstop_term _ _ _ f2 (f :: r) t e); auto; try reflexivity; [|repeat split].
      destruct D2' as [? [? ?] ? ? ? ? ?]. constructor; auto. constructor; auto.
    + rewrite <- LD, (hasc_bit fp c ld h D1 D2 n R W b Ib Tb). cbn [bind].
      assert (BE : bef (f2 :: f :: r) = bef (f :: r)) by (cbn [bef f2 f_A map concat]; apply app_nil_r).
      destruct (hasc b) eqn:HB; cbn [negb].
      * rewrite LD. rewrite <- BE. apply (IH it2 f2 (f :: r)); auto. cbn [length]. lia.
      * destruct (item_leaf n b Ib HB) as (e & G). eexists. split; [reflexivity|]. rewrite <- BE.
        eexists _, _; apply (dstop_leaf _ _ _ f2 (f :: r) e); auto; try reflexivity; [|repeat split].
        destruct D2' as [? [? ?] ? ? ? ? ?]. constructor; auto. constructor; auto.
Qed.

Lemma moveLeft_spec it f r : DS it f r -> d_atPrefix it = false ->
  exists it', d_moveLeft ld it = Ok it' /\ dstopL it' (bef (f :: r)).
Proof.
  intros D AP. unfold d_moveLeft. pose proof (ds_slots _ _ _ D) as ((S1 & S2) & S3). rewrite (ds_level _ _ _ D).
  rewrite (proj2 (idx_Ok _ _ _) S1). cbn [bind]. pose proof (ds_pok _ _ _ D) as PK. pose proof PK as (PK1 & T1 & EI).
  destruct (dense_at r _ _ PK1 T1 (ds_h _ _ _ D)) as (D1 & D2 & _ & LD & R & W & ED).
  pose proof (frame_in kvs f r PK) as I. rewrite <- LD. unfold flab. rewrite (hasc_bit fp c ld h D1 D2 (f_n f) R W (f_it f) I (ds_noterm _ _ _ D)). cbn [bind].
  destruct (hasc (f_it f)) eqn:HC; cbn [negb].
  - rewrite LD. replace (ld_height ld) with h by (symmetry; apply (ldr_h _ _ _ _ _ R)). apply left_loop; auto. pose proof (ds_h _ _ _ D). lia.
  - destruct (item_leaf (f_n f) (f_it f) I HC) as (e & G). eexists. split; [reflexivity|]. eexists _, _; apply (dstop_leaf _ _ _ f r e); auto; try reflexivity; [|repeat split].
    destruct D as [? [? ?] ? ? ? ? ?]. constructor; auto. constructor; auto.
Qed.

(** Next from a node whose items split at label [k]. *)
Lemma next_climb r : forall it P n k A B, pok r -> topn r P n -> length r < h -> dlen it -> dslots (d_pos it) (d_plen it) r ->
  tslot (d_pos it) (d_plen it) r P n k -> is_prefix (ndpath n) (d_key it) -> d_atPrefix it = false -> k < 256 ->
  items n = A ++ B -> (forall x, In x A -> i_term x = false -> i_label x <= k) -> (forall x, In x B -> i_term x = false /\ k < i_label x) ->
  exists it', d_next_climb (length r) ld it = Ok it' /\
    ((concat (map i_grp B) ++ aft r = [] /\ d_valid it' = false /\ dlen it') \/
     (concat (map i_grp B) ++ aft r <> [] /\ dstopL it' (bef r ++ concat (map i_grp A)))).
Proof.
  induction r as [|g r IH]; intros it P n k A B PK T L DL SL TS KP AP Hk EI HA HB;
    destruct (dense_at _ P n PK T L) as (D1 & D2 & _ & LD & R & W & _);
    pose proof (top_wf NSS kvs dw_linked dw_wf RT _ _ _ PK T) as Wn; pose proof TS as [TS1 TS2].
  - (* root *)
    cbn [length d_next_climb]. cbn [length] in TS1, TS2, LD. rewrite (proj2 (idx_Ok _ _ _) TS1). cbn [bind]. rewrite <- LD in *.
    destruct B as [|b B].
    + destruct (next_pos_none fp c ld h D1 D2 n R k Hk) as (np & -> & C).
      { intros x Hx Tx. rewrite app_nil_r in EI. rewrite EI in Hx. auto. }
      cbn [bind]. rewrite C. eexists. split; [reflexivity|]. left. split; [reflexivity|]. split; [reflexivity|]. destruct DL. constructor; auto.
    + destruct (HB b (or_introl eq_refl)) as [Tb Lb]. assert (Ib : In b (items n)) by (rewrite EI; apply in_or_app; right; now left).
      destruct (next_pos_some fp c ld h D1 D2 n R W k b Hk Ib Tb Lb) as [-> C].
      { intros x Hx Tx. rewrite EI in Hx. apply in_app_or in Hx as [Hx|[<-|Hx]]; [left; auto|right; lia|right].
        destruct (items_order n A b B Wn EI Tb) as [_ OB]. destruct (OB x Hx). lia. }
      cbn [bind]. rewrite C. rewrite (LD : length D1 = nid 0 P).
      assert (SA : exists it2, d_setAt (d_setLevel it 0) (nid 0 P * 256 + i_label b) = Ok it2 /\ DS it2 (mkF P n A b B) [] /\ d_atPrefix it2 = false).
      { unfold d_setAt. cbn [d_setLevel d_level d_plen d_pos d_key]. rewrite (proj2 (idx_Ok _ _ _) TS2). cbn [bind]. unfold sub_chk.
        destruct (Nat.leb_spec 1 (tn_d n + 1)); [|lia]. cbn [bind]. replace (tn_d n + 1 - 1) with (length (ndpath n)) by (rewrite (ndpath_length n Wn); lia).
        rewrite (slice_prefix _ _ KP). cbn [bind]. destruct DL as [L1 L2]. rewrite (upd_in _ _ _ ltac:(rewrite L1; exact L)). cbn [bind].
        pose proof (label_byte n b Wn Ib) as LB. replace ((nid 0 P * 256 + i_label b) mod 256) with (i_label b) by lia.
        eexists. split; [reflexivity|]. split; auto. constructor; cbn; auto.
        - constructor; cbn; [now rewrite set_nth_len|auto].
        - split; auto. split; [|exact TS2]. cbn [length]. rewrite set_nth_same by lia. reflexivity. }
      destruct SA as (it2 & -> & D & AP2). cbn [bind]. destruct (moveLeft_spec it2 _ _ D AP2) as (it3 & E3 & S3). exists it3. split; [exact E3|]. right.
      split; [|exact S3]. cbn [map concat aft]. pose proof (item_grp_ne n b Ib). destruct (i_grp b); [congruence|discriminate].
  - (* below *)
    cbn [length d_next_climb]. cbn [length] in TS1, TS2, LD. rewrite (proj2 (idx_Ok _ _ _) TS1). cbn [bind]. rewrite <- LD in *.
    destruct B as [|b B].
    + destruct (next_pos_none fp c ld h D1 D2 n R k Hk) as (np & -> & C).
      { intros x Hx Tx. rewrite app_nil_r in EI. rewrite EI in Hx. auto. }
      cbn [bind]. rewrite C.
      pose proof PK as (PK1 & T1 & EI1). cbn [dslots] in SL. destruct SL as [SL1 SL2].
      pose proof (frame_in kvs g r PK) as Ig. destruct T as (HC & EN & EP).
      pose proof (item_hasc_noterm _ _ Ig HC) as Tg.
      pose proof (top_wf NSS kvs dw_linked dw_wf RT _ _ _ PK1 T1) as Wg. destruct (items_order _ _ _ _ Wg EI1 Tg) as [OA OB].
      destruct (IH it (f_P g) (f_n g) (flab g) (f_A g ++ [f_it g]) (f_B g)) as (it' & E & RES); auto.
      { cbn [length] in L. lia. }
      { destruct (top_npath NSS kvs dw_linked dw_wf RT _ _ _ _ PK (conj HC (conj EN EP))) as [NP _].
        eapply is_prefix_trans; [|exact KP]. eapply is_prefix_trans; [|apply (npath_ndpath n Wn)]. rewrite NP. now exists [flab g]. }
      { now apply (label_byte (f_n g)). }
      { rewrite <- app_assoc. exact EI1. }
      { intros x Hx Tx. apply in_app_or in Hx as [Hx|[<-|[]]]; [|unfold flab; lia]. specialize (OA x Hx Tx). unfold flab. lia. }
      exists it'. split; [exact E|].
      assert (BE : bef r ++ concat (map i_grp (f_A g ++ [f_it g])) = bef (g :: r) ++ concat (map i_grp A)).
      { rewrite map_app, concat_app. cbn [bef map concat]. rewrite app_nil_r, <- app_assoc. f_equal. f_equal.
        rewrite app_nil_r in EI. rewrite <- EI. unfold items. rewrite items_kvs, EN. reflexivity. }
      rewrite <- BE. exact RES.
    + destruct (HB b (or_introl eq_refl)) as [Tb Lb]. assert (Ib : In b (items n)) by (rewrite EI; apply in_or_app; right; now left).
      destruct (next_pos_some fp c ld h D1 D2 n R W k b Hk Ib Tb Lb) as [-> C].
      { intros x Hx Tx. rewrite EI in Hx. apply in_app_or in Hx as [Hx|[<-|Hx]]; [left; auto|right; lia|right].
        destruct (items_order n A b B Wn EI Tb) as [_ OB]. destruct (OB x Hx). lia. }
      cbn [bind]. rewrite C. rewrite LD.
      assert (SA : exists it2, d_setAt (d_setLevel it (S (length r))) (nid (S (length r)) P * 256 + i_label b) = Ok it2 /\ DS it2 (mkF P n A b B) (g :: r) /\ d_atPrefix it2 = false).
      { unfold d_setAt. cbn [d_setLevel d_level d_plen d_pos d_key]. rewrite (proj2 (idx_Ok _ _ _) TS2). cbn [bind]. unfold sub_chk.
        destruct (Nat.leb_spec 1 (tn_d n + 1)); [|lia]. cbn [bind]. replace (tn_d n + 1 - 1) with (length (ndpath n)) by (rewrite (ndpath_length n Wn); lia).
        rewrite (slice_prefix _ _ KP). cbn [bind]. destruct DL as [L1 L2]. rewrite (upd_in _ _ _ ltac:(rewrite L1; exact L)). cbn [bind].
        pose proof (label_byte n b Wn Ib) as LB. replace ((nid (S (length r)) P * 256 + i_label b) mod 256) with (i_label b) by lia.
        eexists. split; [reflexivity|]. split; auto. constructor; auto; cbn [d_setKey d_setPos d_setLevel d_level d_pos d_plen d_key f_it f_n f_P].
        - constructor; cbn; [now rewrite set_nth_len|auto].
        - split; [|apply (dslots_set _ _ (g :: r)); [cbn [length]; lia|exact SL]]. split; [|exact TS2]. cbn [length f_P]. rewrite set_nth_same by (cbn [length] in L; lia). reflexivity.
        - split; auto. }
      destruct SA as (it2 & -> & D & AP2). cbn [bind]. destruct (moveLeft_spec it2 _ _ D AP2) as (it3 & E3 & S3). exists it3. split; [exact E3|]. right.
      split; [|exact S3]. cbn [map concat aft]. pose proof (item_grp_ne n b Ib). destruct (i_grp b); [congruence|discriminate].
Qed.

Lemma ds_h0 it f r : DS it f r -> Nat.eqb (ld_height ld) 0 = false.
Proof.
  intros D. pose proof (ds_h _ _ _ D). assert (E : ld_height ld = h) by apply (ldr_h _ _ _ _ _ (sr_ld fp c NSS h s SR)). apply Nat.eqb_neq. lia.
Qed.

Lemma next_spec it f r : DS it f r -> d_atPrefix it = false ->
  exists it', d_next ld it = Ok it' /\
    ((aft (f :: r) = [] /\ d_valid it' = false /\ dlen it') \/ (aft (f :: r) <> [] /\ dstopL it' (bef (f :: r) ++ i_grp (f_it f)))).
Proof.
  intros D AP. unfold d_next. rewrite (ds_h0 _ _ _ D), AP, (ds_level _ _ _ D). pose proof (ds_pok _ _ _ D) as PK. pose proof PK as (PK1 & T1 & EI).
  pose proof (top_wf NSS kvs dw_linked dw_wf RT _ _ _ PK1 T1) as W. destruct (items_order _ _ _ _ W EI (ds_noterm _ _ _ D)) as [OA OB].
  pose proof (ds_slots _ _ _ D) as (S1 & S2).
  destruct (next_climb r it (f_P f) (f_n f) (flab f) (f_A f ++ [f_it f]) (f_B f)) as (it' & E & RES); auto.
  - apply (ds_h _ _ _ D).
  - apply (ds_len _ _ _ D).
  - rewrite (ds_key _ _ _ D). now exists [flab f].
  - apply (frame_lab NSS kvs dw_linked dw_wf RT f r PK).
  - now rewrite <- app_assoc.
  - intros x Hx Tx. apply in_app_or in Hx as [Hx|[<-|[]]]; [|unfold flab; lia]. specialize (OA x Hx Tx). unfold flab. lia.
  - exists it'. split; [exact E|]. cbn [aft]. replace (bef (f :: r) ++ i_grp (f_it f)) with (bef r ++ concat (map i_grp (f_A f ++ [f_it f]))); [exact RES|].
    rewrite map_app, concat_app. cbn [bef map concat]. now rewrite app_nil_r, <- app_assoc.
Qed.

Lemma next_term it f r : DS it f r -> d_atPrefix it = true ->
  exists it', d_next ld it = Ok it' /\ dstopL it' (bef (f :: r)).
Proof.
  intros D AP. unfold d_next. rewrite (ds_h0 _ _ _ D), AP. apply moveLeft_spec; [|reflexivity].
  destruct D as [? [? ?] ? ? ? ? ?]. constructor; auto. constructor; auto.
Qed.

(** Standing on the first labelled item of a node. *)
Lemma first_append it r P n A b B : pok r -> topn r P n -> length r < h -> dlen it -> dslots (d_pos it) (d_plen it) r ->
  d_level it = length r -> d_key it = npath n -> items n = A ++ b :: B -> i_term b = false -> (forall x, In x A -> i_term x = true) ->
  exists it', (if Nat.ltb 0 (nid (length r) P * 256) then p <- ld_nextPos ld (nid (length r) P * 256 - 1) ;; d_append ld it p else d_setToFirst ld it) = Ok it' /\
    DS it' (mkF P n A b B) r /\ d_atPrefix it' = d_atPrefix it.
Proof.
  intros PK T L DL SL LV KE EI Tb TA. destruct (dense_at r P n PK T L) as (D1 & D2 & _ & LD & R & W & _).
  pose proof (top_wf NSS kvs dw_linked dw_wf RT _ _ _ PK T) as Wn.
  destruct (items_order n A b B Wn EI Tb) as [OA OB]. assert (Ib : In b (items n)) by (rewrite EI; apply in_or_app; right; now left).
  pose proof (label_byte n b Wn Ib) as LB.
  destruct (append_spec it r P n (i_label b)) as (ps & pl & E & L1 & L2 & S1 & S2); auto.
  exists (d_setKey (d_setPos it ps pl) (ndpath n ++ [i_label b])). split.
  - rewrite <- E. rewrite <- LD in *.
    assert (HX : forall x, In x (items n) -> i_term x = false -> i_label b <= i_label x).
    { intros x Hx Tx. rewrite EI in Hx. apply in_app_or in Hx as [Hx|[<-|Hx]]; [|lia|destruct (OB x Hx); lia]. rewrite (TA x Hx) in Tx. discriminate. }
    destruct (Nat.ltb_spec 0 (length D1 * 256)) as [Z|Z].
    + rewrite (next_pos_at fp c ld h D1 D2 n R W b); auto; try lia.
    + assert (L0 : length D1 = 0) by lia. unfold d_setToFirst.
      pose proof (label_bv fp c ld h D1 D2 n R) as BV.
      assert (IS : rv_isSet (ld_label ld) 0 = Ok (Nat.eqb (i_label b) 0)).
      { replace 0 with (length D1 * 256 + 0) at 1 by lia. rewrite (d_label fp c ld h D1 D2 n R) by lia. f_equal.
        destruct (Nat.eqb_spec (i_label b) 0) as [B0|B0].
        - apply (bits_item noterm). exists b. unfold noterm. rewrite Tb. auto.
        - destruct (existsb _ _) eqn:Ex; auto. apply (bits_item noterm) in Ex as (x & X1 & X2 & X3). exfalso.
          unfold noterm in X2. apply negb_true_iff in X2. specialize (HX x X1 X2). lia. }
      rewrite IS. cbn [bind]. destruct (Nat.eqb_spec (i_label b) 0) as [B0|B0].
      * f_equal. lia.
      * rewrite (next_pos_at fp c ld h D1 D2 n R W b); auto; try lia.
  - split; [|reflexivity]. constructor; cbn [d_setKey d_setPos d_level d_pos d_plen d_key f_it f_n]; auto.
    + constructor; auto.
    + split; auto.
    + cbn [SurfIterPath.pok f_P f_n f_A f_it f_B]. split; auto.
Qed.

(* ---------------------------------------------------------------- *)
(** ** To the right *)

Lemma last_item n : nwf n -> 2 <= length (items n) -> exists A b, items n = A ++ [b] /\ i_term b = false.
Proof.
  intros W L. destruct (items n) as [|x B] eqn:E; [cbn in L; lia|]. destruct (rev B) as [|b A] eqn:EB.
  - apply (f_equal (@length _)) in EB. rewrite rev_length in EB. cbn [length] in *. lia.
  - assert (B = rev A ++ [b]) by (rewrite <- (rev_involutive B), EB; reflexivity). subst B. exists (x :: rev A), b. split; auto.
    pose proof (tail_noterm n _ _ E) as TN. rewrite Forall_forall in TN. apply TN. apply in_or_app. right. now left.
Qed.

Lemma right_loop todo : forall it f r, DS it f r -> hasc (f_it f) = true -> d_atPrefix it = false -> S (length r) + todo = h ->
  exists it', d_right_loop todo ld it (nid (length r) (f_P f) * 256 + flab f) = Ok it' /\ dstopR it' (aft (f :: r)).
Proof.
  induction todo as [|todo IH]; intros it f r D HC AP Ht.
  - cbn [d_right_loop]. assert (T : topn (f :: r) (kids f) (mkchild (f_it f))) by (repeat split; auto).
    rewrite (child_id it f r _ _ D T). cbn [bind]. eexists. split; [reflexivity|].
    replace (S (length r)) with h by lia. eexists _, _; apply (dstop_send _ _ _ f r); try reflexivity; auto; [|lia|repeat split].
    destruct D as [? [? ?] ? ? ? ? ?]. constructor; auto. constructor; auto.
  - cbn [d_right_loop]. set (n := mkchild (f_it f)). assert (T : topn (f :: r) (kids f) n) by (repeat split; auto).
    rewrite (child_id it f r _ _ D T). cbn [bind]. pose proof (ds_pok _ _ _ D) as PK.
    destruct (dense_at (f :: r) _ _ PK T) as (D1 & D2 & _ & LD & R & W & _). { cbn [length]. lia. } cbn [length] in LD.
    pose proof (top_wf NSS kvs dw_linked dw_wf RT _ _ _ PK T) as Wn.
    pose proof (top_two NSS kvs dw_linked dw_wf RT _ _ _ PK T ltac:(discriminate)) as TW.
    destruct (last_item n Wn TW) as (A & b & EI & Tb). destruct (items_order n A b [] Wn EI Tb) as [OA _].
    assert (Ib : In b (items n)) by (rewrite EI; apply in_or_app; right; now left).
    pose proof (label_byte n b Wn Ib) as LB.
    assert (NZ : length D1 <> 0) by (rewrite LD; apply nid_pos).
    rewrite <- LD. rewrite (prev_pos_at fp c ld h D1 D2 n R W b); auto; try lia.
    2:{ intros x Hx Tx. left. rewrite EI in Hx. apply in_app_or in Hx as [Hx|[<-|[]]]; [|lia]. specialize (OA x Hx Tx). lia. }
    cbn [bind]. destruct (Nat.eqb_spec (length D1 * 256 + i_label b) 0) as [|_]; [lia|]. rewrite LD.
    destruct (top_npath NSS kvs dw_linked dw_wf RT _ _ _ _ PK T) as [NP _].
    destruct (append_spec (d_setLevel it (S (d_level it))) (f :: r) (kids f) n (i_label b)) as (ps & pl & E & L1 & L2 & S1 & S2); auto.
    { cbn [length]. lia. } { destruct (ds_len _ _ _ D). constructor; auto. } { apply (ds_slots _ _ _ D). } { cbn. now rewrite (ds_level _ _ _ D). }
    { cbn [d_setLevel d_key]. rewrite (ds_key _ _ _ D). auto. }
    cbn [length] in E. rewrite E. cbn [bind].
    set (it2 := d_setKey (d_setPos (d_setLevel it (S (d_level it))) ps pl) (ndpath n ++ [i_label b])).
    set (f2 := mkF (kids f) n A b []).
    assert (D2' : DS it2 f2 (f :: r)).
    { constructor; cbn [it2 f2 d_setKey d_setPos d_setLevel d_level d_pos d_plen d_key f_it f_n]; auto.
      - cbn [length]. now rewrite (ds_level _ _ _ D).
      - constructor; auto.
      - cbn [dslots]. split; auto.
      - cbn [SurfIterPath.pok f_P f_n f_A f_it f_B]. split; auto.
      - cbn [length]. lia. }
    rewrite <- LD, (hasc_bit fp c ld h D1 D2 n R W b Ib Tb). cbn [bind].
    assert (BE : aft (f2 :: f :: r) = aft (f :: r)) by reflexivity.
    destruct (hasc b) eqn:HB; cbn [negb].
    + rewrite LD. rewrite <- BE. apply (IH it2 f2 (f :: r)); auto. cbn [length]. lia.
    + destruct (item_leaf n b Ib HB) as (e & G). eexists. split; [reflexivity|]. rewrite <- BE.
      eexists _, _; apply (dstop_leaf _ _ _ f2 (f :: r) e); auto; try reflexivity; [|repeat split].
      destruct D2' as [? [? ?] ? ? ? ? ?]. constructor; auto. constructor; auto.
Qed.

Lemma moveRight_spec it f r : DS it f r -> d_atPrefix it = false ->
  exists it', d_moveRight ld it = Ok it' /\ dstopR it' (aft (f :: r)).
Proof.
  intros D AP. unfold d_moveRight. pose proof (ds_slots _ _ _ D) as ((S1 & S2) & S3). rewrite (ds_level _ _ _ D).
  rewrite (proj2 (idx_Ok _ _ _) S1). cbn [bind]. pose proof (ds_pok _ _ _ D) as PK. pose proof PK as (PK1 & T1 & EI).
  destruct (dense_at r _ _ PK1 T1 (ds_h _ _ _ D)) as (D1 & D2 & _ & LD & R & W & ED).
  pose proof (frame_in kvs f r PK) as I. rewrite <- LD. unfold flab. rewrite (hasc_bit fp c ld h D1 D2 (f_n f) R W (f_it f) I (ds_noterm _ _ _ D)). cbn [bind].
  destruct (hasc (f_it f)) eqn:HC; cbn [negb].
  - rewrite LD. replace (ld_height ld) with h by (symmetry; apply (ldr_h _ _ _ _ _ R)). apply right_loop; auto. pose proof (ds_h _ _ _ D). lia.
  - destruct (item_leaf (f_n f) (f_it f) I HC) as (e & G). eexists. split; [reflexivity|]. eexists _, _; apply (dstop_leaf _ _ _ f r e); auto; try reflexivity; [|repeat split].
    destruct D as [? [? ?] ? ? ? ? ?]. constructor; auto. constructor; auto.
Qed.

(** Going back needs a root without terminator and without a label 0 besides others. *)
Definition root_ok : Prop :=
  (exists x, items (mknode kvs 0) = [x] /\ i_term x = false) \/ Forall (fun x => i_term x = false /\ 0 < i_label x) (items (mknode kvs 0)).

Lemma root_noterm x : root_ok -> In x (items (mknode kvs 0)) -> i_term x = false.
Proof. intros [(y & -> & T)|F] H; [destruct H as [<-|[]]; auto|]. rewrite Forall_forall in F. now apply F. Qed.

Lemma root_item r : forall P n, pok r -> topn r P n -> r <> [] -> exists x, In x (items (mknode kvs 0)) /\ hasc x = true.
Proof.
  induction r as [|g r IH]; intros P n PK T NE; [congruence|]. pose proof (frame_in kvs g r PK) as I. destruct T as (HC & _). destruct PK as (PK & T & EI). 
  destruct r as [|g' r].
  - destruct T as [_ EN]. rewrite EN in I. eauto.
  - apply (IH _ _ PK T). discriminate.
Qed.

Lemma root_pos r P n : root_ok -> pok r -> topn r P n -> r <> [] ->
  exists x, In x (items (mknode kvs 0)) /\ i_term x = false /\ 0 < i_label x.
Proof.
  intros RO PK T NE. destruct (root_item r P n PK T NE) as (x & I & HC). destruct RO as [(y & E & _)|F].
  - exfalso. pose proof (top_wf NSS kvs dw_linked dw_wf RT [] [] (mknode kvs 0) Logic.I (conj eq_refl eq_refl)) as W.
    pose proof (items_kvs (tn_d (mknode kvs 0)) (tn_kvs (mknode kvs 0))) as K. fold (items (mknode kvs 0)) in K. rewrite E in K. cbn [map concat] in K. rewrite app_nil_r in K.
    rewrite E in I. destruct I as [<-|[]]. unfold hasc in HC. apply Nat.ltb_lt in HC. 
    pose proof (items_two _ W) as TW. rewrite E, <- K in TW. cbn [length] in TW. lia.
  - exists x. split; auto. rewrite Forall_forall in F. now apply F.
Qed.

Lemma root_first l : exists D, concat (firstn (S l) NSS) = mknode kvs 0 :: D.
Proof. destruct NSS as [|L N]; [discriminate|]. cbn [nth_error] in RT. inversion RT. subst L. cbn [firstn concat app]. eauto. Qed.

(** Stepping to an earlier item of the same node. *)
Lemma prev_in_node r it f A x : pok (f :: r) -> length r < h -> dlen it -> dslots (d_pos it) (d_plen it) (f :: r) ->
  i_term (f_it f) = false -> is_prefix (ndpath (f_n f)) (d_key it) -> d_atPrefix it = false -> f_A f = A ++ [x] -> i_term x = false ->
  (r = [] -> 0 < i_label x) ->
  exists it', d_prev_climb (length r) ld it = Ok it' /\ dstopR it' (i_grp (f_it f) ++ aft (f :: r)).
Proof.
  intros PK L DL SL NT KP AP EA Tx Zx. pose proof PK as (PK1 & T1 & EI). destruct (dense_at _ _ _ PK1 T1 L) as (D1 & D2 & _ & LD & R & W & ED).
  pose proof (top_wf NSS kvs dw_linked dw_wf RT _ _ _ PK1 T1) as Wn.
  destruct (items_order _ _ _ _ Wn EI NT) as [OA OB]. pose proof (frame_lab NSS kvs dw_linked dw_wf RT f _ PK) as LF.
  cbn [dslots] in SL. destruct SL as ((TS1 & TS2) & SL).
  assert (EI2 : items (f_n f) = A ++ x :: (f_it f :: f_B f)) by (rewrite EI, EA, <- app_assoc; reflexivity).
  destruct (items_order _ _ _ _ Wn EI2 Tx) as [OA2 OB2].
  assert (Ix : In x (items (f_n f))) by (rewrite EI2; apply in_or_app; right; now left).
  assert (LXF : i_label x < flab f). { apply OA; auto. rewrite EA. apply in_or_app. right. now left. }
  assert (NZ : length D1 * 256 + i_label x <> 0).
  { rewrite LD. destruct r as [|g r]; [specialize (Zx eq_refl); lia|]. pose proof (nid_pos (length r) (f_P f)). cbn [length]. lia. }
  assert (SA : exists it2, d_setAt (d_setLevel it (length r)) (length D1 * 256 + i_label x) = Ok it2 /\ DS it2 (mkF (f_P f) (f_n f) A x (f_it f :: f_B f)) r /\ d_atPrefix it2 = false).
  { unfold d_setAt. cbn [d_setLevel d_level d_plen d_pos d_key]. rewrite (proj2 (idx_Ok _ _ _) TS2). cbn [bind]. unfold sub_chk.
    destruct (Nat.leb_spec 1 (tn_d (f_n f) + 1)); [|lia]. cbn [bind]. replace (tn_d (f_n f) + 1 - 1) with (length (ndpath (f_n f))) by (rewrite (ndpath_length _ Wn); lia).
    rewrite (slice_prefix (ndpath (f_n f)) (d_key it) KP). cbn [bind]. destruct DL as [L1 L2]. rewrite (upd_in _ _ _ ltac:(rewrite L1; exact L)). cbn [bind].
    pose proof (label_byte _ x Wn Ix) as LB. replace ((length D1 * 256 + i_label x) mod 256) with (i_label x) by lia.
    eexists. split; [reflexivity|]. split; auto. constructor; cbn [d_setKey d_setPos d_setLevel d_level d_pos d_plen d_key f_it f_n f_P]; auto.
    - constructor; cbn; [now rewrite set_nth_len|auto].
    - split; [|apply dslots_set; auto]. split; [|exact TS2]. cbn [f_P]. rewrite set_nth_same by lia. unfold flab. cbn [f_it]. now rewrite LD.
    - cbn [SurfIterPath.pok f_P f_n f_A f_it f_B]. split; auto. }
  destruct SA as (it2 & E2 & D & AP2). destruct (moveRight_spec it2 _ _ D AP2) as (it3 & E3 & S3). exists it3. split.
  - assert (ST : d_prev_climb (length r) ld it = bind (d_setAt (d_setLevel it (length r)) (length D1 * 256 + i_label x)) (fun it => d_moveRight ld it)).
    { assert (PP : ld_prevPos ld (nid (length r) (f_P f) * 256 + flab f) = Ok (Some (length D1 * 256 + i_label x))).
      { rewrite <- LD. rewrite (prev_pos_at fp c ld h D1 D2 (f_n f) R W x); auto; try lia.
        - destruct (Nat.eqb_spec (length D1 * 256 + i_label x) 0) as [|_]; [lia|reflexivity].
        - intros y Hy Ty. rewrite EI2 in Hy. apply in_app_or in Hy as [Hy|[<-|[<-|Hy]]]; [left|left; lia|right; unfold flab; lia|right].
          + specialize (OA2 y Hy Ty). lia.
          + destruct (OB y Hy). unfold flab. lia. }
      assert (LT : Nat.ltb ((length D1 * 256 + i_label x) / 256) ((nid (length r) (f_P f) * 256 + flab f) / 256) = false).
      { rewrite <- LD. apply Nat.ltb_ge. lia. }
      destruct r as [|g r]; cbn [d_prev_climb length]; cbn [length] in TS1, PP, LT; rewrite (proj2 (idx_Ok _ _ _) TS1); cbn [bind]; rewrite PP; cbn [bind]; rewrite LT; reflexivity. }
    rewrite ST, E2. exact E3.
  - cbn [aft f_B] in S3 |- *. cbn [map concat] in S3. rewrite <- app_assoc in S3. exact S3.
Qed.

Lemma bef_ne f r A x : pok (f :: r) -> f_A f = A ++ [x] -> bef (f :: r) <> [].
Proof.
  intros PK EA. cbn [bef]. rewrite EA, map_app, concat_app. cbn [map concat].
  assert (Ix : In x (items (f_n f))) by (destruct PK as (_ & _ & ->); rewrite EA; apply in_or_app; left; apply in_or_app; right; now left).
  pose proof (item_grp_ne _ x Ix) as NE. intros HH. apply app_eq_nil in HH as [_ HH]. apply app_eq_nil in HH as [_ HH]. rewrite app_nil_r in HH. congruence.
Qed.

Lemma prev_climb r : root_ok -> forall it f, pok (f :: r) -> length r < h -> dlen it -> dslots (d_pos it) (d_plen it) (f :: r) ->
  i_term (f_it f) = false -> is_prefix (ndpath (f_n f) ++ [flab f]) (d_key it) -> d_atPrefix it = false ->
  exists it', d_prev_climb (length r) ld it = Ok it' /\
    ((bef (f :: r) = [] /\ d_valid it' = false /\ dlen it') \/ (bef (f :: r) <> [] /\ dstopR it' (i_grp (f_it f) ++ aft (f :: r)))).
Proof.
  intros RO. induction r as [|g r IH]; intros it f PK L DL SL NT KP AP;
    pose proof PK as (PK1 & T1 & EI);
    destruct (before_item _ _ _ _ EI) as [EA|[(t & EA & Tt)|(A & x & EA & Tx)]].
  - destruct (dense_at _ _ _ PK1 T1 L) as (D1 & D2 & _ & LD & R & W & ED).
    pose proof (top_wf NSS kvs dw_linked dw_wf RT _ _ _ PK1 T1) as Wn.
    destruct (items_order _ _ _ _ Wn EI NT) as [OA OB]. pose proof (frame_lab NSS kvs dw_linked dw_wf RT f _ PK) as LF.
    cbn [dslots] in SL. destruct SL as ((TS1 & TS2) & _). pose proof T1 as [EP EN].
    cbn [length d_prev_climb]. cbn [length] in TS1, TS2, LD. rewrite (proj2 (idx_Ok _ _ _) TS1). cbn [bind]. rewrite <- LD.
    assert (D10 : D1 = []) by (rewrite ED, EP; reflexivity).
    rewrite (prev_pos_root fp c ld h D1 D2 (f_n f) R); auto.
    2:{ intros x Hx Tx. rewrite EI, EA in Hx. destruct Hx as [<-|Hx]; [unfold flab; lia|]. destruct (OB x Hx). unfold flab. lia. }
    cbn [bind]. eexists. split; [reflexivity|]. left. cbn [bef]. rewrite EA. repeat split; auto; destruct DL; auto.
  - exfalso. destruct T1 as [_ EN]. rewrite (root_noterm t RO) in Tt; [discriminate|]. rewrite <- EN, EI, EA. now left.
  - pose proof T1 as [EP EN].
    destruct (prev_in_node [] it f A x) as (it' & E' & S'); auto.
    { eapply is_prefix_trans; [|exact KP]. now exists [flab f]. }
    { intros _. destruct RO as [(y & E & _)|F].
      - rewrite <- EN, EI, EA in E. apply (f_equal (@length _)) in E. rewrite !app_length in E. cbn [length] in E. lia.
      - rewrite Forall_forall in F. apply F. rewrite <- EN, EI, EA. apply in_or_app; left; apply in_or_app; right; now left. }
    exists it'. split; auto. right. split; auto. eapply bef_ne; eauto.
  - (* climb *)
    destruct (dense_at _ _ _ PK1 T1 L) as (D1 & D2 & _ & LD & R & W & ED).
    pose proof (top_wf NSS kvs dw_linked dw_wf RT _ _ _ PK1 T1) as Wn.
    destruct (items_order _ _ _ _ Wn EI NT) as [OA OB]. pose proof (frame_lab NSS kvs dw_linked dw_wf RT f _ PK) as LF.
    cbn [dslots] in SL. destruct SL as ((TS1 & TS2) & SL).
    cbn [length d_prev_climb]. cbn [length] in TS1, TS2, LD. rewrite (proj2 (idx_Ok _ _ _) TS1). cbn [bind]. rewrite <- LD.
    destruct (root_pos _ _ _ RO PK1 T1 ltac:(discriminate)) as (x & X1 & X2 & X3).
    destruct (root_first (length r)) as (DD & ER). cbn [length] in ED. rewrite ER in ED.
    destruct (prev_pos_none fp c ld h D1 D2 (f_n f) R W (flab f) (mknode kvs 0) x LF) as (q & -> & LT); auto.
    { intros y Hy Ty. rewrite EI, EA in Hy. destruct Hy as [<-|Hy]; [unfold flab; lia|]. destruct (OB y Hy). unfold flab. lia. }
    { rewrite ED. now left. }
    cbn [bind]. rewrite LT. replace ((length D1 * 256 + flab f) / 256) with (length D1) by lia.
    rewrite (d_isPrefix fp c ld h D1 D2 (f_n f) R). cbn [bind].
    assert (NTN : nterm (f_n f) = false).
    { unfold nterm. rewrite EI, EA. cbn [app existsb]. rewrite NT. cbn [orb]. destruct (existsb i_term (f_B f)) eqn:Ex; auto.
      apply existsb_exists in Ex as (y & Y1 & Y2). destruct (OB y Y1). congruence. }
    rewrite NTN. destruct T1 as (HC & EN & EP). pose proof (frame_in kvs g r PK1) as Ig. pose proof (item_hasc_noterm _ _ Ig HC) as Tg.
    destruct (IH it g) as (it' & E & RES); auto.
    { cbn [length] in L. lia. }
    { destruct (top_npath NSS kvs dw_linked dw_wf RT _ _ _ _ PK1 (conj HC (conj EN EP))) as [NP _].
      eapply is_prefix_trans; [|exact KP]. rewrite <- NP. eapply is_prefix_trans; [apply (npath_ndpath _ Wn)|]. now exists [flab f]. }
    exists it'. split; [exact E|].
    assert (B1 : bef (f :: g :: r) = bef (g :: r)) by (cbn [bef]; rewrite EA; cbn [map concat]; apply app_nil_r).
    assert (B2 : i_grp (f_it f) ++ aft (f :: g :: r) = i_grp (f_it g) ++ aft (g :: r)).
    { change (aft (f :: g :: r)) with (concat (map i_grp (f_B f)) ++ aft (g :: r)). rewrite app_assoc. f_equal.
      pose proof (items_kvs (tn_d (f_n f)) (tn_kvs (f_n f))) as K. fold (items (f_n f)) in K. rewrite EI, EA in K. cbn [app map concat] in K. rewrite K, EN. reflexivity. }
    rewrite B1, B2. exact RES.
  - (* terminator *)
    destruct (dense_at _ _ _ PK1 T1 L) as (D1 & D2 & _ & LD & R & W & ED).
    pose proof (top_wf NSS kvs dw_linked dw_wf RT _ _ _ PK1 T1) as Wn.
    destruct (items_order _ _ _ _ Wn EI NT) as [OA OB]. pose proof (frame_lab NSS kvs dw_linked dw_wf RT f _ PK) as LF.
    pose proof SL as SL0. cbn [dslots] in SL. destruct SL as ((TS1 & TS2) & SL).
    cbn [length d_prev_climb]. cbn [length] in TS1, TS2, LD. rewrite (proj2 (idx_Ok _ _ _) TS1). cbn [bind]. rewrite <- LD.
    destruct (root_pos _ _ _ RO PK1 T1 ltac:(discriminate)) as (x & X1 & X2 & X3).
    destruct (root_first (length r)) as (DD & ER). cbn [length] in ED. rewrite ER in ED.
    destruct (prev_pos_none fp c ld h D1 D2 (f_n f) R W (flab f) (mknode kvs 0) x LF) as (q & -> & LT); auto.
    { intros y Hy Ty. rewrite EI, EA in Hy. destruct Hy as [<-|[<-|Hy]]; [congruence|unfold flab; lia|]. destruct (OB y Hy). unfold flab. lia. }
    { rewrite ED. now left. }
    cbn [bind]. rewrite LT. replace ((length D1 * 256 + flab f) / 256) with (length D1) by lia.
    rewrite (d_isPrefix fp c ld h D1 D2 (f_n f) R). cbn [bind].
    assert (NTN : nterm (f_n f) = true) by (unfold nterm; rewrite EI, EA; cbn [app existsb]; now rewrite Tt).
    rewrite NTN. unfold d_truncate. cbn [d_setLevel d_level d_plen d_key]. rewrite (proj2 (idx_Ok _ _ _) TS2). cbn [bind].
    replace (tn_d (f_n f) + 1) with (length (ndpath (f_n f) ++ [flab f])) by (rewrite app_length, (ndpath_length _ Wn); reflexivity).
    rewrite (slice_prefix _ _ KP). cbn [bind]. eexists. split; [reflexivity|]. right.
    assert (It : In t (items (f_n f))) by (rewrite EI, EA; now left).
    destruct (item_leaf _ t It) as (e & G). { destruct (hasc t) eqn:HT; auto. rewrite (item_hasc_noterm _ _ It HT) in Tt. discriminate. }
    split; [eapply (bef_ne f (g :: r) [] t); eauto|].
    eexists _, _. apply (dstop_term _ _ _ f (g :: r) t e); auto; try reflexivity; [|repeat split].
    destruct DL as [L1 L2]. constructor; auto. constructor; auto.
  - destruct (prev_in_node (g :: r) it f A x) as (it' & E' & S'); auto.
    { eapply is_prefix_trans; [|exact KP]. now exists [flab f]. }
    { discriminate. }
    exists it'. split; auto. right. split; auto. eapply bef_ne; eauto.
Qed.

Lemma prev_spec it f r : root_ok -> DS it f r -> d_atPrefix it = false ->
  exists it', d_prev ld it = Ok it' /\
    ((bef (f :: r) = [] /\ d_valid it' = false /\ dlen it') \/ (bef (f :: r) <> [] /\ dstopR it' (i_grp (f_it f) ++ aft (f :: r)))).
Proof.
  intros RO D AP. unfold d_prev. rewrite (ds_h0 _ _ _ D), AP, (ds_level _ _ _ D).
  apply prev_climb; auto; try apply D. rewrite (ds_key _ _ _ D). apply is_prefix_refl.
Qed.

Lemma prev_term it f r t : root_ok -> DS it f r -> d_atPrefix it = true -> f_A f = [t] -> i_term t = true ->
  exists it', d_prev ld it = Ok it' /\
    ((bef r = [] /\ d_valid it' = false /\ dlen it') \/ (bef r <> [] /\ dstopR it' (i_grp t ++ i_grp (f_it f) ++ aft (f :: r)))).
Proof.
  intros RO D AP EA Tt. unfold d_prev. rewrite (ds_h0 _ _ _ D), AP, (ds_level _ _ _ D).
  pose proof (ds_pok _ _ _ D) as PK. pose proof PK as (PK1 & T1 & EI).
  destruct r as [|g r].
  { exfalso. destruct T1 as [_ EN]. rewrite (root_noterm t RO) in Tt; [discriminate|]. rewrite <- EN, EI, EA. now left. }
  cbn [length]. unfold sub_chk. cbn [Nat.leb bind]. replace (S (length r) - 1) with (length r) by lia.
  pose proof (top_wf NSS kvs dw_linked dw_wf RT _ _ _ PK1 T1) as Wn.
  destruct T1 as (HC & EN & EP). pose proof (frame_in kvs g r PK1) as Ig. pose proof (item_hasc_noterm _ _ Ig HC) as Tg.
  destruct (prev_climb r RO (d_setLevel (d_setAtPrefix it false) (length r)) g) as (it' & E & RES); auto.
  { pose proof (ds_h _ _ _ D) as L. cbn [length] in L. lia. }
  { destruct (ds_len _ _ _ D). constructor; auto. }
  { apply (ds_slots _ _ _ D). }
  { cbn [d_setLevel d_setAtPrefix d_key]. rewrite (ds_key _ _ _ D).
    destruct (top_npath NSS kvs dw_linked dw_wf RT _ _ _ _ PK1 (conj HC (conj EN EP))) as [NP _]. rewrite <- NP.
    eapply is_prefix_trans; [apply (npath_ndpath _ Wn)|]. now exists [flab f]. }
  exists it'. split; [exact E|].
  assert (B2 : i_grp t ++ i_grp (f_it f) ++ aft (f :: g :: r) = i_grp (f_it g) ++ aft (g :: r)).
  { change (aft (f :: g :: r)) with (concat (map i_grp (f_B f)) ++ aft (g :: r)). rewrite !app_assoc. f_equal.
    pose proof (items_kvs (tn_d (f_n f)) (tn_kvs (f_n f))) as K. fold (items (f_n f)) in K. rewrite EI, EA in K. cbn [app map concat] in K. rewrite <- app_assoc, K, EN. reflexivity. }
  rewrite B2. exact RES.
Qed.

(** To the last item of the root. *)
Lemma setToLast_spec it A b : 0 < h -> dlen it -> d_level it = 0 -> d_key it = [] -> items (mknode kvs 0) = A ++ [b] -> i_term b = false ->
  exists it', d_setToLast ld it = Ok it' /\ DS it' (mkF [] (mknode kvs 0) A b []) [] /\ d_atPrefix it' = d_atPrefix it.
Proof.
  intros H0 DL LV KE EI Tb. assert (T : topn [] [] (mknode kvs 0)) by (split; reflexivity).
  destruct (dense_at [] [] _ I T H0) as (D1 & D2 & _ & LD & R & W & ED). cbn in ED. subst D1.
  pose proof (top_wf NSS kvs dw_linked dw_wf RT [] [] (mknode kvs 0) I T) as Wn.
  destruct (items_order _ _ _ _ Wn EI Tb) as [OA _]. assert (Ib : In b (items (mknode kvs 0))) by (rewrite EI; apply in_or_app; right; now left).
  pose proof (label_byte _ b Wn Ib) as LB.
  destruct (append_spec it [] [] (mknode kvs 0) (i_label b)) as (ps & pl & E & L1 & L2 & S1 & S2); auto.
  { exact I. } { exact I. }
  exists (d_setKey (d_setPos it ps pl) (ndpath (mknode kvs 0) ++ [i_label b])). split.
  - unfold d_setToLast. pose proof (prev_pos_at fp c ld h [] D2 _ R W b 256 Ib Tb) as PP. cbn [length] in PP. rewrite PP; try lia.
    2:{ intros x Hx Tx. left. rewrite EI in Hx. apply in_app_or in Hx as [Hx|[<-|[]]]; [|lia]. specialize (OA x Hx Tx). lia. }
    cbn [bind]. rewrite <- E. f_equal. unfold SurfGet2.nid. cbn [firstn concat app length]. destruct (Nat.eqb_spec (0 * 256 + i_label b) 0); lia.
  - split; [|reflexivity]. constructor; cbn [d_setKey d_setPos d_level d_pos d_plen d_key f_it f_n]; auto.
    + constructor; auto.
    + split; auto.
    + cbn [SurfIterPath.pok f_P f_n f_A f_it f_B]. split; auto.
Qed.

(* ---------------------------------------------------------------- *)
(** ** What the iterator shows *)

Hypothesis LO : Forall (leaf_ok c) (leaves (concat NSS)).

Hypothesis INC : increasing (map fst kvs).
Hypothesis NI : Forall (ninv kvs) (concat NSS).

Lemma leaf_key f r e : pok (f :: r) -> forall x, In x (items (f_n f)) -> i_grp x = [e] ->
  dprefix (map fst kvs) (fst e) = ikey (f_n f) x.
Proof.
  intros PK x Ix G. pose proof PK as (PK1 & T1 & EI). destruct (top_at NSS kvs dw_linked RT r PK1 _ _ T1) as (Q & AT).
  apply leaf_dprefix; auto.
  - rewrite Forall_forall in NI. apply NI. eapply at_in; eauto.
  - destruct r as [|g r].
    + pose proof (top_wf NSS kvs dw_linked dw_wf RT _ _ _ PK1 T1) as W. destruct T1 as [_ EN]. rewrite EN in *. now apply root_two.
    + destruct T1 as (HC & EN & _). rewrite EN. now apply child_two.
Qed.

Lemma dense_value D1 D2 n A x B e : concat (firstn h NSS) = D1 ++ n :: D2 -> items n = A ++ x :: B -> hasc x = false -> i_grp x = [e] ->
  valueVector_get (ld_values ld) (length (filter leafb (flat_map items D1 ++ A))) = Ok (firstn (c_valueSize c) (snd e)).
Proof.
  intros E EI HC G. pose proof (ldr_val _ _ _ _ _ (sr_ld fp c NSS h s SR)) as [V1 V2]. unfold valueVector_get. rewrite V1, V2.
  rewrite (slice_flat (ivalue c) (c_valueSize c) _ _ x).
  - unfold ivalue, i_kv. now rewrite G.
  - intros y Hy. assert (Iy : In y (leaves (concat NSS))).
    { unfold leaves in *. rewrite <- (firstn_skipn h NSS), concat_app, flat_map_app, filter_app. apply in_or_app. now left. }
    rewrite Forall_forall in LO. now apply LO.
  - rewrite E. now apply (leaves_split D1 D2 n A x B).
Qed.

Lemma show_leaf it f r e : DS it f r -> hasc (f_it f) = false -> i_grp (f_it f) = [e] -> d_atPrefix it = false ->
  d_Key it = Ok (dprefix (map fst kvs) (fst e)) /\ d_Value ld it = Ok (firstn (c_valueSize c) (snd e)).
Proof.
  intros D HC G AP. pose proof (ds_pok _ _ _ D) as PK. pose proof PK as (PK1 & T1 & EI). split.
  - unfold d_Key. rewrite AP, (ds_key _ _ _ D), (leaf_key f r e PK (f_it f) (frame_in kvs f r PK) G). unfold ikey. now rewrite (ds_noterm _ _ _ D).
  - unfold d_Value. rewrite (ds_level _ _ _ D). pose proof (ds_slots _ _ _ D) as ((S1 & _) & _). rewrite (proj2 (idx_Ok _ _ _) S1). cbn [bind]. rewrite AP.
    destruct (dense_at _ _ _ PK1 T1 (ds_h _ _ _ D)) as (D1 & D2 & EC & LD & R & W & ED). rewrite <- LD. unfold flab.
    rewrite (d_suffixPos_leaf fp c ld h D1 D2 (f_n f) R W (f_A f) (f_it f) (f_B f)) by (auto; apply (ds_noterm _ _ _ D)). cbn [bind]. eapply dense_value; eauto.
Qed.

Lemma show_term it f r t e : DS it f r -> f_A f = [t] -> i_term t = true -> i_grp t = [e] -> d_atPrefix it = true ->
  d_Key it = Ok (dprefix (map fst kvs) (fst e)) /\ d_Value ld it = Ok (firstn (c_valueSize c) (snd e)).
Proof.
  intros D EA Tt G AP. pose proof (ds_pok _ _ _ D) as PK. pose proof PK as (PK1 & T1 & EI).
  assert (It : In t (items (f_n f))) by (rewrite EI, EA; now left). split.
  - unfold d_Key. rewrite AP, (ds_key _ _ _ D), (leaf_key f r e PK t It G). unfold ikey. rewrite Tt. unfold sub_chk.
    rewrite app_length. cbn [length]. destruct (Nat.leb_spec 1 (length (ndpath (f_n f)) + 1)); [|lia]. cbn [bind].
    replace (length (ndpath (f_n f)) + 1 - 1) with (length (ndpath (f_n f))) by lia. apply slice_prefix. now exists [flab f].
  - unfold d_Value. rewrite (ds_level _ _ _ D). pose proof (ds_slots _ _ _ D) as ((S1 & _) & _). rewrite (proj2 (idx_Ok _ _ _) S1). cbn [bind]. rewrite AP.
    destruct (dense_at _ _ _ PK1 T1 (ds_h _ _ _ D)) as (D1 & D2 & EC & LD & R & W & ED). rewrite <- LD. unfold flab.
    pose proof EI as EI'. rewrite EA in EI'. cbn [app] in EI'.
    rewrite (d_suffixPos_term1 fp c ld h D1 D2 (f_n f) R W t (f_it f) (f_B f)) by auto. cbn [bind].
    pose proof (dense_value D1 D2 (f_n f) [] t (f_it f :: f_B f) e EC EI') as DV. rewrite app_nil_r in DV. apply DV; auto.
    destruct (hasc t) eqn:HT; auto. rewrite (item_hasc_noterm _ _ It HT) in Tt. discriminate.
Qed.
End Walk.
