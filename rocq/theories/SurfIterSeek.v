(** * Seek: where the dense part of an iterator goes. *)
From Coq Require Import Sorted.
From Verif Require Import Base BitsModel BitsFacts VecModel VecProofs VecProofs2 SurfModel SurfTrie SurfSuffix SurfBuild SurfDense SurfEnc SurfBuildTop SurfGet SurfGet2 SurfSpec SurfWalk SurfTop SurfSuffix3 SurfGetSpec SurfExact SurfAll SurfIter SurfIterSpec SurfLevel SurfVerdict SurfIterLevel SurfIterPath SurfIterDense SurfIterSparse SurfIterTop SurfIterMain.
Ltac Zify.zify_post_hook ::= Z.div_mod_to_equations.

(* ------------------------------------------------------------------ *)
(** ** Byte order *)

Lemma bcompare_lt_app p : forall r x y, length r <= length p -> bcompare p r = Lt -> bcompare (p ++ x) (r ++ y) = Lt.
Proof.
  induction p as [|a p IH]; intros [|b r] x y L H; cbn [length bcompare app] in *; try discriminate; try lia.
  destruct (Nat.compare a b); auto. apply IH; auto. lia.
Qed.
Lemma bcompare_gt_app p : forall r x y, (y = [] \/ length p <= length r) -> bcompare p r = Gt -> bcompare (p ++ x) (r ++ y) = Gt.
Proof.
  induction p as [|a p IH]; intros [|b r] x y L H; cbn [length bcompare app] in *; try discriminate.
  - destruct L as [->|L]; [reflexivity|lia].
  - destruct (Nat.compare a b); auto. apply IH; auto. destruct L; [auto|right; lia].
Qed.
Lemma bcompare_gt a b : bcompare a b = Gt -> blt b a.
Proof. intros H. unfold blt. rewrite bcompare_antisym, H. reflexivity. Qed.

(** The node prefix against the rest of the key. *)
Lemma prefix_cmp_spec a p q : is_prefix a q -> exists cmp, prefix_cmp p q (length a) = Ok cmp /\
  ((cmp < 0)%Z -> forall x, blt (a ++ p ++ x) q) /\
  ((0 < cmp)%Z -> forall x, blt q (a ++ p ++ x)) /\
  (cmp = 0%Z -> is_prefix (a ++ p) q).
Proof.
  intros (z & ->). unfold prefix_cmp. destruct p as [|b p].
  { exists 0%Z. split; [reflexivity|]. split; [lia|]. split; [lia|]. intros _. rewrite app_nil_r. now exists z. }
  set (P := b :: p). unfold slice. rewrite app_length.
  destruct (Nat.leb_spec (length a) (Nat.min (length a + length P) (length a + length z))); [|cbn [length] in *; lia].
  destruct (Nat.leb_spec (Nat.min (length a + length P) (length a + length z)) (length a + length z)); [|lia]. cbn [andb bind].
  rewrite skipn_app, skipn_all, Nat.sub_diag. cbn [skipn app].
  replace (Nat.min (length a + length P) (length a + length z) - length a) with (Nat.min (length P) (length z)) by lia.
  set (r := firstn (Nat.min (length P) (length z)) z).
  assert (ER : z = r ++ skipn (Nat.min (length P) (length z)) z) by (symmetry; apply firstn_skipn).
  assert (LR : length r = Nat.min (length P) (length z)) by (unfold r; rewrite firstn_length; lia).
  eexists. split; [reflexivity|]. unfold cmpZ. destruct (bcompare P r) eqn:C.
  - apply bcompare_eq in C. split; [lia|]. split; [lia|]. intros _. rewrite ER, <- C. exists (skipn (Nat.min (length P) (length z)) z). now rewrite app_assoc.
  - split; [|split; lia]. intros _ x. unfold blt. rewrite bcompare_app. rewrite ER. apply bcompare_lt_app; auto. lia.
  - split; [lia|]. split; [|lia]. intros _ x. apply bcompare_gt. rewrite bcompare_app. rewrite ER. apply bcompare_gt_app; auto.
    destruct (Nat.le_ge_cases (length P) (length z)); [right; lia|left]. apply skipn_all2. lia.
Qed.

(** A key below label [l] of a node against a key with another byte there. *)
Lemma byte_order a l k q : is_prefix (a ++ [l]) k -> is_prefix a q -> length a < length q ->
  (l < nth (length a) q 0 -> blt k q) /\ (nth (length a) q 0 < l -> blt q k).
Proof.
  intros (x & ->) (z & ->) L. rewrite app_length in L. destruct z as [|b z]; [cbn [length] in L; lia|].
  rewrite app_nth2, Nat.sub_diag by lia. cbn [nth]. unfold blt. rewrite <- app_assoc. rewrite !bcompare_app. cbn [app bcompare].
  split; intros H; [destruct (Nat.compare_spec l b)|destruct (Nat.compare_spec b l)]; auto; lia.
Qed.
Lemma prefix_blt a q : is_prefix a q -> length a < length q -> blt a q.
Proof. intros P L. pose proof (is_prefix_ble _ _ P) as B. apply ble_lteq in B as [B|B]; auto. subst. lia. Qed.

(** Splitting the items of a node at a label. *)
Lemma items_at_label n k : nwf n -> exists A B, items n = A ++ B /\ (forall x, In x A -> i_term x = false -> i_label x <= k) /\
  (forall x, In x B -> i_term x = false /\ k < i_label x).
Proof.
  intros W. assert (G : forall Z Y, items n = Y ++ Z -> (forall x, In x Y -> i_term x = false -> i_label x <= k) ->
     exists A B, items n = A ++ B /\ (forall x, In x A -> i_term x = false -> i_label x <= k) /\ (forall x, In x B -> i_term x = false /\ k < i_label x)).
  { induction Z as [|b Z IH]; intros Y EI HY.
    - exists Y, []. split; auto. split; auto. intros x [].
    - destruct (i_term b || Nat.leb (i_label b) k) eqn:C.
      + apply (IH (Y ++ [b])); [rewrite <- app_assoc; exact EI|]. intros x Hx Tx. apply in_app_or in Hx as [Hx|[<-|[]]]; auto.
        rewrite Tx in C. cbn [orb] in C. now apply Nat.leb_le.
      + apply orb_false_iff in C as [Tb Lb]. apply Nat.leb_gt in Lb. exists Y, (b :: Z). split; auto. split; auto.
        destruct (items_order n Y b Z W EI Tb) as [_ OB]. intros x [<-|Hx]; auto. destruct (OB x Hx). split; auto. lia. }
  apply (G (items n) []); auto. intros x [].
Qed.

(* ------------------------------------------------------------------ *)
Section Seek.
Variable fp : bytes -> N.
Variable c : config.
Variables (NSS : list (list tnode)) (h : nat) (s : surf) (kvs : list kv).
Hypothesis SR : surf_rep fp c NSS h s.
Hypothesis RT : nth_error NSS 0 = Some [mknode kvs 0].
Hypothesis CO : cfg_ok c.
Hypothesis LO : Forall (leaf_ok c) (leaves (concat NSS)).
Hypothesis INC : increasing (map fst kvs).
Hypothesis NI : Forall (ninv kvs) (concat NSS).
Variable q : bytes.
Hypothesis Wq : wf_bytes q = true.
Notation pok := (pok kvs).
Notation topn := (topn kvs).
Notation nid := (nid NSS).
Notation DS := (DS NSS h kvs).
Notation dslots := (dslots NSS).
Notation dstopL := (dstopL NSS h kvs).
Notation dcomp := (dcomp NSS h kvs).
Notation dbase := (dbase NSS h kvs).
Notation linked := (dw_linked fp c NSS h s SR).
Notation wf := (dw_wf fp c NSS h s SR).
Notation ld := (s_ld s).

Notation keys := (map fst kvs).
Notation near_ k := (near keys k q).
Notation near e := (near keys (fst e) q).
Notation passed e := (passed (c_realLen c) keys q (fst e)).
Definition lo (l : list kv) : Prop := forall e, In e l -> passed e.
Definition hi (l : list kv) : Prop := forall e, In e l -> ~ near e /\ ble q (fst e).
Definition shi (l : list kv) : Prop := forall e, In e l -> ~ near e /\ blt q (fst e).

Lemma lo_app a b : lo (a ++ b) <-> lo a /\ lo b.
Proof. unfold lo. split; [intros H; split; intros e He; apply H; apply in_or_app; auto|intros [H1 H2] e He; apply in_app_or in He as [He|He]; auto]. Qed.
Lemma hi_app a b : hi (a ++ b) <-> hi a /\ hi b.
Proof. unfold hi. split; [intros H; split; intros e He; apply H; apply in_or_app; auto|intros [H1 H2] e He; apply in_app_or in He as [He|He]; auto]. Qed.
Lemma shi_app a b : shi (a ++ b) <-> shi a /\ shi b.
Proof. unfold shi. split; [intros H; split; intros e He; apply H; apply in_or_app; auto|intros [H1 H2] e He; apply in_app_or in He as [He|He]; auto]. Qed.
Lemma shi_hi l : shi l -> hi l.
Proof. intros H e He. destruct (H e He). split; auto. now apply blt_ble. Qed.

(** *** The keys of a node against [q] *)
Section Node.
Variable n : tnode.
Hypothesis NIn : ninv kvs n.
Hypothesis TT : two_or_top n.
Let W : nwf n := ni_wf _ _ NIn.

(** The distinguishing prefix of a key below an item goes on beyond its label. *)
Lemma dprefix_item x e : In x (items n) -> In e (i_grp x) -> i_term x = false -> is_prefix (ndpath n ++ [i_label x]) (dprefix keys (fst e)).
Proof.
  intros Ix He Tx. destruct (hasc x) eqn:HC.
  - assert (CW : nwf (mkchild x)) by (apply child_wf with n; auto). destruct (other_key (mkchild x) e CW) as (e' & He' & NE'); auto.
    { change (tn_kvs (mkchild x)) with (i_grp x). unfold hasc in HC. apply Nat.ltb_lt in HC. lia. }
    change (tn_kvs (mkchild x)) with (i_grp x) in He'. apply (dprefix_cover keys (fst e) (fst e')); auto; try (apply label_prefix; auto).
    apply in_map. apply (ni_incl _ _ NIn). eapply item_grp_incl; eauto.
  - destruct (item_leaf n x Ix HC) as (e' & G). rewrite G in He. destruct He as [<-|[]].
    rewrite (leaf_dprefix kvs n x e' INC NIn TT Ix G). unfold ikey. rewrite Tx. apply is_prefix_refl.
Qed.
Lemma term_far x e : In x (items n) -> In e (i_grp x) -> i_term x = true -> ~ near e.
Proof.
  intros Ix He Tx [NC _]. apply NC. destruct (item_term n x W Ix Tx) as (e0 & r & EK & G & FE & NE & _). rewrite G in He. destruct He as [<-|[]].
  destruct r as [|y r]; [congruence|]. pose proof (w_inc n W) as WI. rewrite EK in WI. cbn [map increasing] in WI. destruct WI as [WI _].
  assert (Hy : In y (tn_kvs n)) by (rewrite EK; right; now left). exists (fst y). split; [apply in_map; now apply (ni_incl _ _ NIn)|]. split; [rewrite FE; now apply ndpath_prefix|].
  intros E. rewrite E in WI. now apply blt_irrefl in WI.
Qed.
Lemma node_far e : In e (tn_kvs n) -> ~ (is_prefix (ndpath n) q /\ tn_d n < length q) -> ~ near e.
Proof.
  intros He H NR. destruct (item_of n e He) as (x & Ix & Gx). destruct (i_term x) eqn:T; [exact (term_far x e Ix Gx T NR)|].
  destruct NR as [_ P]. pose proof (is_prefix_trans _ _ _ (dprefix_item x e Ix Gx T) P) as P2. apply H. split.
  - eapply is_prefix_trans; [|exact P2]. eexists; reflexivity.
  - apply is_prefix_length in P2. rewrite app_length, (ndpath_length n W) in P2. cbn [length] in P2. lia.
Qed.
Lemma item_far x e : In x (items n) -> In e (i_grp x) -> i_label x <> nth (tn_d n) q 0 -> ~ near e.
Proof.
  intros Ix He NL NR. destruct (i_term x) eqn:T; [exact (term_far x e Ix He T NR)|].
  destruct NR as [_ P]. destruct (is_prefix_trans _ _ _ (dprefix_item x e Ix He T) P) as (z & ->). apply NL.
  rewrite <- app_assoc, app_nth2 by (rewrite (ndpath_length n W); lia). rewrite (ndpath_length n W), Nat.sub_diag. reflexivity.
Qed.
Lemma far_lo (e : kv) : ~ near e -> blt (fst e) q -> passed e.
Proof. intros F H. right. auto. Qed.

Lemma key_ext e : In e (tn_kvs n) -> exists x, fst e = npath n ++ nprefix n ++ x.
Proof. intros H. destruct (ndpath_prefix n e W H) as (x & E). exists x. rewrite E, <- (nprefix_path n W), <- app_assoc. reflexivity. Qed.

Lemma node_cmp : is_prefix (npath n) q -> exists cmp, prefix_cmp (nprefix n) q (tn_pd n) = Ok cmp /\
  ((cmp < 0)%Z -> lo (tn_kvs n)) /\ ((0 < cmp)%Z -> shi (tn_kvs n) /\ ~ is_prefix (ndpath n) q) /\ (cmp = 0%Z -> is_prefix (ndpath n) q).
Proof.
  intros P. destruct (prefix_cmp_spec (npath n) (nprefix n) q P) as (cmp & E & C1 & C2 & C3). rewrite (npath_length n W) in E.
  exists cmp. split; [exact E|]. split; [|split].
  - intros H e He. destruct (key_ext e He) as (x & EX). pose proof (C1 H x) as LT. rewrite <- EX in LT. apply far_lo; auto. apply node_far; auto. intros [(z & PN) _].
    rewrite <- (nprefix_path n W), <- app_assoc in PN. specialize (C1 H z). rewrite <- PN in C1. now apply blt_irrefl in C1.
  - intros H. split; [|intros (z & PN); rewrite <- (nprefix_path n W), <- app_assoc in PN; specialize (C2 H z); rewrite <- PN in C2; now apply blt_irrefl in C2].
    intros e He. destruct (key_ext e He) as (x & EX). pose proof (C2 H x) as LT. rewrite <- EX in LT. split; auto. apply node_far; auto. intros [(z & PN) _].
    rewrite <- (nprefix_path n W), <- app_assoc in PN. specialize (C2 H z). rewrite <- PN in C2. now apply blt_irrefl in C2.
  - intros H. rewrite <- (nprefix_path n W). now apply C3.
Qed.

Lemma short_hi : is_prefix (ndpath n) q -> length q <= tn_d n -> hi (tn_kvs n).
Proof.
  intros P L e He. split; [apply node_far; auto; lia|]. assert (E : ndpath n = q) by (apply is_prefix_eq; auto; rewrite (ndpath_length n W); auto). rewrite <- E. apply is_prefix_ble. now apply ndpath_prefix.
Qed.

Lemma item_order x e : is_prefix (ndpath n) q -> tn_d n < length q -> In x (items n) -> In e (i_grp x) ->
  (i_term x = true -> blt (fst e) q) /\
  (i_term x = false -> i_label x < nth (tn_d n) q 0 -> blt (fst e) q) /\
  (i_term x = false -> nth (tn_d n) q 0 < i_label x -> blt q (fst e)) /\
  (i_term x = false -> i_label x = nth (tn_d n) q 0 -> firstn (tn_d n + 1) (fst e) = firstn (tn_d n + 1) q).
Proof.
  intros P L I He. pose proof (ndpath_length n W) as NL. repeat split.
  - intros T. destruct (item_term n x W I T) as (e' & r & EK & G & FE & _). rewrite G in He. destruct He as [<-|[]]. rewrite FE. apply prefix_blt; auto. now rewrite NL.
  - intros T H. pose proof (label_prefix n x e W I T He) as LP. rewrite <- NL in H, L. now apply (byte_order _ _ _ _ LP P L).
  - intros T H. pose proof (label_prefix n x e W I T He) as LP. rewrite <- NL in H, L. now apply (byte_order _ _ _ _ LP P L).
  - intros T H. pose proof (label_prefix n x e W I T He) as (y & ->). rewrite firstn_app. replace (tn_d n + 1) with (length (ndpath n ++ [i_label x])) by (rewrite app_length; cbn [length]; lia).
    rewrite firstn_all, Nat.sub_diag. cbn [firstn]. rewrite app_nil_r. rewrite app_length, NL. cbn [length]. rewrite Nat.add_1_r, firstn_S_nth by auto. f_equal; [|congruence].
    apply is_prefix_firstn_iff in P. rewrite NL in P. congruence.
Qed.

(** *** [q] does not end at a branching of the dense levels *)
Definition stub : bool := stubb h keys q.
Lemma stub_keys : stub = true -> levels_above keys q < h /\ ((exists k1 k2, In k1 keys /\ In k2 keys /\ is_prefix q k1 /\ is_prefix q k2 /\ k1 <> k2 /\ splitb keys q = true) \/ (length kvs = 1 /\ q = [])).
Proof.
  unfold stub, stubb. intros H. apply andb_true_iff in H as [H L]. apply Nat.ltb_lt in L. split; [exact L|]. apply orb_true_iff in H as [H|H].
  - left. pose proof H as H'. apply splitb_iff in H as (k1 & k2 & I1 & I2 & P1 & P2 & NE). exists k1, k2. repeat (split; auto). intros ->. auto.
  - right. apply andb_true_iff in H as [H1 H2]. apply Nat.eqb_eq in H1, H2. rewrite map_length in H1. split; auto. now destruct q.
Qed.
Lemma near_nostub k : near_ k -> 0 < length q -> stub = false.
Proof.
  intros N L. destruct stub eqn:S; auto. exfalso. apply stub_keys in S as [_ [(k1 & k2 & I1 & I2 & P1 & P2 & NE & _)|[_ ->]]]; [|cbn in L; lia].
  assert (X : forall k', In k' keys -> is_prefix q k' -> k = k').
  { intros k' I P. apply (near_stored keys); auto. destruct N as [N1 N2]. split; auto. eapply is_prefix_trans; eauto. }
  apply NE. rewrite <- (X k1), <- (X k2); auto.
Qed.
Lemma lo_nostub : is_prefix (npath n) q -> lo (tn_kvs n) -> stub = false.
Proof.
  intros P L. destruct stub eqn:S; auto. exfalso. pose proof S as S'. apply stub_keys in S as [_ [(k1 & k2 & I1 & I2 & P1 & P2 & NE & _)|[L1 EQ]]].
  - destruct (node_keys kvs n q k1 NIn P I1 P1) as (e & He & <-). destruct (L e He) as [[NR _]|[_ LT]].
    + destruct (Nat.eq_dec (length q) 0) as [Z|Z]; [|rewrite (near_nostub _ NR) in S' by lia; discriminate].
      assert (X : fst e = k2). { apply (near_stored keys); auto. destruct NR as [N1 N2]. split; auto. eapply is_prefix_trans; eauto. } auto.
    + eapply blt_irrefl. eapply blt_ble_trans; [exact LT|]. now apply is_prefix_ble.
  - pose proof (w_ne n W) as NE. destruct (tn_kvs n) as [|e l] eqn:EK; [congruence|]. assert (He : In e (tn_kvs n)) by (rewrite EK; now left).
    destruct (L e (or_introl eq_refl)) as [[NR _]|[_ LT]].
    + revert NR. apply node_far; auto. rewrite EQ. cbn [length]. lia.
    + rewrite EQ in LT. unfold blt in LT. destruct (fst e); cbn in LT; discriminate.
Qed.
Lemma gt_nostub : is_prefix (npath n) q -> ~ is_prefix (ndpath n) q -> stub = false.
Proof.
  intros P NP. destruct stub eqn:S; auto. exfalso. apply stub_keys in S as [_ [(k1 & k2 & I1 & I2 & P1 & P2 & NE & SB)|[L1 EQ]]].
  - destruct (node_keys kvs n q k1 NIn P I1 P1) as (e & He & <-). pose proof (ndpath_prefix n e W He) as PE.
    destruct (Nat.lt_ge_cases (length q) (tn_d n)) as [L|L].
    + rewrite (node_nosplit kvs n q NIn P) in SB; [discriminate| |exact L]. apply (is_prefix_comparable _ _ (fst e)); auto. rewrite (ndpath_length n W). lia.
    + apply NP. apply (is_prefix_comparable _ _ (fst e)); auto. rewrite (ndpath_length n W). lia.
  - apply NP. destruct TT as [T2|T0].
    + exfalso. assert (X : length (tn_kvs n) <= length kvs); [|lia]. apply NoDup_incl_length; [|apply (ni_incl _ _ NIn)].
      apply (NoDup_map_inv fst). apply increasing_NoDup. apply (w_inc n W).
    + assert (X : ndpath n = []). { pose proof (ndpath_length n W) as NL. rewrite T0 in NL. now destruct (ndpath n). } rewrite X. now exists q.
Qed.
Lemma absent_nostub : is_prefix (ndpath n) q -> tn_d n < length q -> (forall x, In x (items n) -> i_term x = false -> i_label x <> nth (tn_d n) q 0) -> stub = false.
Proof.
  intros P L AB. destruct stub eqn:S; auto. exfalso. apply stub_keys in S as [_ [(k1 & k2 & I1 & I2 & P1 & P2 & NE & SB)|[L1 EQ]]]; [|rewrite EQ in L; cbn in L; lia].
  destruct (node_keys kvs n q k1 NIn) as (e & He & <-); auto. { eapply is_prefix_trans; [apply (npath_ndpath n W)|exact P]. }
  destruct (item_of n e He) as (x & Ix & Gx). destruct (i_term x) eqn:T.
  - destruct (item_term n x W Ix T) as (e' & r & EK & G & FE & _). rewrite G in Gx. destruct Gx as [<-|[]]. rewrite FE in P1. apply is_prefix_length in P1. rewrite (ndpath_length n W) in P1. lia.
  - apply (AB x Ix T). pose proof (label_prefix n x e W Ix T Gx) as (z & E). destruct P1 as (z' & E'). rewrite E' in E.
    assert (N : nth (tn_d n) (q ++ z') 0 = nth (tn_d n) ((ndpath n ++ [i_label x]) ++ z) 0) by now rewrite E.
    rewrite app_nth1 in N by auto. rewrite <- app_assoc, app_nth2 in N by (rewrite (ndpath_length n W); lia). rewrite (ndpath_length n W), Nat.sub_diag in N. symmetry. exact N.
Qed.

(** When the byte of [q] labels no item, the items split into smaller and larger ones. *)
Lemma absent_split : is_prefix (ndpath n) q -> tn_d n < length q -> (forall x, In x (items n) -> i_term x = false -> i_label x <> nth (tn_d n) q 0) ->
  exists A B, items n = A ++ B /\ (forall x, In x A -> i_term x = false -> i_label x <= nth (tn_d n) q 0) /\
    (forall x, In x B -> i_term x = false /\ nth (tn_d n) q 0 < i_label x) /\ lo (concat (map i_grp A)) /\ shi (concat (map i_grp B)).
Proof.
  intros P L AB. destruct (items_at_label n (nth (tn_d n) q 0) W) as (A & B & EI & HA & HB). exists A, B. split; [exact EI|]. split; [exact HA|]. split; [exact HB|]. split.
  - intros e He. apply in_concat in He as (g & Hg & He). apply in_map_iff in Hg as (x & <- & Hx).
    assert (Ix : In x (items n)) by (rewrite EI; apply in_or_app; auto). destruct (item_order x e P L Ix He) as (O1 & O2 & _).
    destruct (i_term x) eqn:T; [apply far_lo; auto; now apply (term_far x)|]. specialize (HA x Hx T). specialize (AB x Ix T). apply far_lo; [now apply (item_far x)|]. apply O2; auto. lia.
  - intros e He. apply in_concat in He as (g & Hg & He). apply in_map_iff in Hg as (x & <- & Hx).
    assert (Ix : In x (items n)) by (rewrite EI; apply in_or_app; auto). destruct (item_order x e P L Ix He) as (_ & _ & O3 & _).
    destruct (HB x Hx). split; [apply (item_far x); auto; lia|now apply O3].
Qed.
Lemma present_split A x B : is_prefix (ndpath n) q -> tn_d n < length q -> items n = A ++ x :: B -> i_term x = false -> i_label x = nth (tn_d n) q 0 ->
  lo (concat (map i_grp A)) /\ shi (concat (map i_grp B)).
Proof.
  intros P L EI Tx Lx. destruct (items_order n A x B W EI Tx) as [OA OB]. split.
  - intros e He. apply in_concat in He as (g & Hg & He). apply in_map_iff in Hg as (y & <- & Hy).
    assert (Iy : In y (items n)) by (rewrite EI; apply in_or_app; auto). destruct (item_order y e P L Iy He) as (O1 & O2 & _).
    destruct (i_term y) eqn:T; [apply far_lo; auto; now apply (term_far y)|]. specialize (OA y Hy T). apply far_lo; [apply (item_far y); auto; lia|]. apply O2; auto. lia.
  - intros e He. apply in_concat in He as (g & Hg & He). apply in_map_iff in Hg as (y & <- & Hy).
    assert (Iy : In y (items n)) by (rewrite EI; apply in_or_app; right; right; auto). destruct (item_order y e P L Iy He) as (_ & _ & O3 & _).
    destruct (OB y Hy). split; [apply (item_far y); auto; lia|]. apply O3; auto. lia.
Qed.
Lemma label_find : tn_d n < length q -> (exists A x B, items n = A ++ x :: B /\ i_term x = false /\ i_label x = nth (tn_d n) q 0) \/
  (forall x, In x (items n) -> i_term x = false -> i_label x <> nth (tn_d n) q 0).
Proof.
  intros L. destruct (existsb (fun x => noterm x && Nat.eqb (i_label x) (nth (tn_d n) q 0)) (items n)) eqn:E.
  - left. apply (bits_item noterm) in E as (x & Ix & Tx & Lx). destruct (in_split _ _ Ix) as (A & B & EI). exists A, x, B. repeat split; auto. unfold noterm in Tx. now destruct (i_term x).
  - right. intros x Ix Tx EL. assert (existsb (fun x => noterm x && Nat.eqb (i_label x) (nth (tn_d n) q 0)) (items n) = true); [|congruence].
    apply (bits_item noterm). exists x. unfold noterm. rewrite Tx. auto.
Qed.
End Node.

Lemma top_ni r P n : pok r -> topn r P n -> ninv kvs n /\ two_or_top n.
Proof.
  intros PK T. destruct (top_at NSS kvs linked RT r PK _ _ T) as (Q & AT). split.
  - rewrite Forall_forall in NI. apply NI. eapply at_in; eauto.
  - destruct r as [|g r].
    + pose proof (top_wf NSS kvs linked wf RT _ _ _ PK T) as W. destruct T as [_ EN]. rewrite EN in *. now apply root_two.
    + destruct T as (HC & EN & _). rewrite EN. now apply child_two.
Qed.

(** A leaf reached by the bytes of [q]: the suffix comparison there. *)
Lemma leaf_cmp xv its j n x e r P : pok r -> topn r P n ->
  sx_rep fp c xv its -> nth_error its j = Some x -> leaf_ok c x ->
  In x (items n) -> i_term x = false -> i_grp x = [e] ->
  is_prefix (ndpath n) q -> tn_d n < length q -> i_label x = nth (tn_d n) q 0 ->
  near e /\ suffix_compare xv q j (tn_d n + 1) = Ok (zcmp (verdict (c_realLen c) (length (dprefix keys (fst e))) (fst e) q)).
Proof.
  intros PK T SX Hj LK Ix Tx G PR L EL. pose proof (top_wf NSS kvs linked wf RT _ _ _ PK T) as W. destruct (top_ni _ _ _ PK T) as [NIn TW].
  assert (IK : i_kv x = e) by (unfold i_kv; now rewrite G). assert (ID : i_depth x = tn_d n) by now apply item_depth.
  pose proof (leaf_dprefix kvs n x e INC NIn TW Ix G) as DP. unfold ikey in DP. rewrite Tx in DP.
  split.
  - split; [apply (leaf_alone kvs n x e NIn Ix Tx G)|]. rewrite DP, EL. pose proof PR as PN'. apply is_prefix_firstn_iff in PN'. rewrite (ndpath_length n W) in PN'. rewrite <- PN'. now apply firstn_nth_prefix.
  - rewrite (suffix_compare_verdict fp c CO xv its j x q (tn_d n + 1) SX Hj (proj1 LK) Wq), IK, ID, DP, app_length, (ndpath_length n W). reflexivity.
Qed.

(** *** The dense part *)
(** The iterator stops at [e] and reports [b]: [e] is not taken to be less than [q]. *)
Definition landed (b : bool) (e : kv) : Prop :=
  (near e /\ verdict (c_realLen c) (length (dprefix keys (fst e))) (fst e) q = (if b then Eq else Gt)) \/
  (~ near e /\ ble q (fst e) /\ (b = true -> is_prefix q (fst e)) /\ b = stub).
(** A report without an undecided suffix: [q] ends where the iterator stops. *)
Definition ends (b : bool) (pre : list kv) : Prop := (b = true -> forall e rest, pre ++ e :: rest = kvs -> is_prefix q (fst e)) /\ b = stub.
Inductive dres (d : denseIter) (b : bool) : Prop :=
| D1 pre : dstopL d pre -> lo pre -> (forall rest, pre ++ rest = kvs -> hi rest) -> ends b pre -> dres d b
| D2 pre e post : dcomp d pre e post -> lo pre -> shi post -> landed b e -> dres d b
| D3 : d_valid d = false -> dlen h d -> lo kvs -> b = false -> dres d b
| D4 R0 PZ n0 : pok R0 -> topn R0 PZ n0 -> length R0 = h -> dbase d R0 -> d_search d = false -> d_sendNode d = nid h PZ -> d_sendDepth d = tn_pd n0 ->
    is_prefix (npath n0) q -> lo (bef R0) -> shi (aft R0) -> dres d b.

Lemma rest_of (pre mid rest0 rest : list kv) : pre ++ mid ++ rest0 = kvs -> (pre ++ mid) ++ rest = kvs -> rest = rest0.
Proof. intros E1 E2. rewrite app_assoc in E1. rewrite <- E2 in E1. now apply app_inv_head in E1. Qed.

(** Moving on from an item whose keys are all smaller. *)
Lemma next_res d f r : DS d f r -> d_atPrefix d = false -> lo (bef (f :: r)) -> lo (i_grp (f_it f)) -> shi (aft (f :: r)) -> stub = false ->
  exists d', d_next ld d = Ok d' /\ dres d' false.
Proof.
  intros D AP LB LG SA NS. pose proof (bef_aft_it kvs f r (ds_pok _ _ _ _ _ _ D)) as EK.
  destruct (next_spec fp c NSS h s kvs SR RT d f r D AP) as (d' & -> & [(A0 & V & DV)|(A0 & ST)]); exists d'; split; auto.
  - apply D3; auto. rewrite <- EK, A0, app_nil_r. now apply lo_app.
  - apply (D1 _ _ (bef (f :: r) ++ i_grp (f_it f))); auto; [now apply lo_app| |split; [discriminate|auto]]. intros rest E. rewrite (rest_of _ _ _ _ EK E). now apply shi_hi.
Qed.

Lemma first_split r P n : pok r -> topn r P n -> exists A b B, items n = A ++ b :: B /\ i_term b = false /\ (forall x, In x A -> i_term x = true) /\
  ((exists t e, A = [t] /\ i_term t = true /\ i_grp t = [e] /\ nterm n = true) \/ (A = [] /\ nterm n = false)).
Proof.
  intros PK T. pose proof (top_wf NSS kvs linked wf RT _ _ _ PK T) as W.
  assert (TW : 2 <= length (items n) \/ exists x, items n = [x] /\ i_term x = false).
  { destruct r as [|g r]; [|left; apply (top_two NSS kvs linked wf RT _ _ _ PK T); discriminate]. destruct T as [_ ->].
    pose proof (items_pos _ W). destruct (items (mknode kvs 0)) as [|x [|y l]] eqn:E; [cbn in *; lia|right|left; cbn [length]; lia].
    exists x. split; auto. apply (RNT fp c NSS h s kvs SR RT). exact E. }
  destruct TW as [TW|(x & E & Tx)].
  - destruct (first_items n W TW) as [(t & b & B & E & Tt & Tb & NT & e & G)|(b & B & E & Tb & NT)].
    + exists [t], b, B. split; auto. split; auto. split; [intros x [<-|[]]; auto|]. left. eauto 6.
    + exists [], b, B. repeat split; auto. 
  - exists [], x, []. split; auto. split; auto. split; [intros y []|]. right. split; auto. unfold nterm. rewrite E. cbn [existsb]. now rewrite Tx.
Qed.

Lemma ds_flags d f r : DS d f r -> DS (d_complete_flags d) f r.
Proof. intros [? [? ?] ? ? ? ? ?]. constructor; auto. constructor; auto. Qed.
Lemma ds_at d f r b : DS d f r -> DS (d_setAtPrefix d b) f r.
Proof. intros [? [? ?] ? ? ? ? ?]. constructor; auto. constructor; auto. Qed.

Lemma ds_back it it' f r P n : pok (f :: r) -> topn (f :: r) P n -> dlen h it -> dslots (d_pos it) (d_plen it) (f :: r) ->
  d_key it = npath n -> d_level it' = length r -> d_pos it' = d_pos it -> d_plen it' = d_plen it -> d_key it' = d_key it -> length r < h -> DS it' f r.
Proof.
  intros PK T DL SL KE LV EP EL EK LH. constructor; auto.
  - destruct DL. constructor; congruence.
  - now rewrite EP, EL.
  - destruct (top_npath NSS kvs linked wf RT r f P n PK T) as [<- _]. congruence.
  - destruct PK as (_ & _ & EI). apply (item_hasc_noterm (f_n f)); [rewrite EI; apply in_or_app; right; now left|apply T].
Qed.

Lemma dseek_loop todo : forall it r P n, pok r -> topn r P n -> length r + todo = h -> dlen h it -> dslots (d_pos it) (d_plen it) r ->
  d_level it = length r -> d_key it = npath n -> d_atPrefix it = false -> is_prefix (npath n) q -> lo (bef r) -> shi (aft r) ->
  exists d b, d_seek_loop todo ld it q (nid (length r) P) (tn_pd n) = Ok (d, b) /\ dres d b.
Proof.
  induction todo as [|todo IH]; intros it r P n PK T LH DL SL LV KE AP PR LB SA; cbn [d_seek_loop].
  - eexists _, _. split; [reflexivity|]. rewrite Nat.add_0_r in LH. apply (D4 _ _ r P n); auto; try (rewrite LH; reflexivity).
    destruct r as [|f r]; cbn [SurfIterTop.dbase].
    + cbn. repeat split; auto; [rewrite KE; apply (root_npath kvs P n T)|apply DL|apply DL].
    + cbn [length] in LH. split; [|split; [exact AP|split; reflexivity]]. eapply ds_back; eauto; cbn [d_setFlags d_setSend d_setLevel d_level d_pos d_plen d_key]; auto; [|lia].
      rewrite LV. reflexivity.
  - destruct (dense_at fp c NSS h s kvs SR RT r P n PK T) as (E1 & E2 & EC & LD & R & W & ED); [lia|].
    pose proof (top_wf NSS kvs linked wf RT _ _ _ PK T) as Wn. destruct (top_ni _ _ _ PK T) as [NIn TWn]. pose proof (bef_aft kvs r PK _ _ T) as EK.
    rewrite <- LD, (prefix_at fp c ld h E1 E2 n R). cbn [bind].
    destruct (node_cmp n NIn TWn PR) as (cmp & -> & C1 & C2 & C3). cbn [bind].
    destruct (Z.ltb_spec cmp 0) as [LT|GE].
    { (* everything below the node is smaller *)
      specialize (C1 LT). pose proof (lo_nostub n NIn TWn PR C1) as NS. destruct r as [|f r].
      - assert (L0 : length E1 = 0) by (rewrite LD; destruct T as [-> _]; reflexivity). rewrite L0. cbn [Nat.eqb]. eexists _, _. split; [reflexivity|].
        apply D3; [reflexivity|destruct DL; constructor; auto| |reflexivity]. destruct T as [_ ->]. exact C1.
      - destruct (Nat.eqb_spec (length E1) 0) as [Z0|_]; [exfalso; rewrite LD in Z0; eapply nid_pos; eauto|]. rewrite LV. cbn [length]. unfold sub_chk. cbn [Nat.leb bind].
        rewrite Nat.sub_succ, Nat.sub_0_r.
        assert (D : DS (d_setLevel it (length r)) f r).
        { eapply ds_back; eauto. cbn [length] in LH. lia. }
        destruct (next_res _ f r D AP LB) as (d' & -> & RES); auto. { destruct T as (_ & EN & _). rewrite EN in C1. exact C1. }
        cbn [bind]. eexists _, _. split; [reflexivity|exact RES]. }
    assert (PD : tn_pd n + length (nprefix n) = tn_d n) by now apply prefix_depth. rewrite PD.
    destruct (Nat.leb (length q) (tn_d n) || (0 <? cmp)%Z) eqn:C.
    { (* everything below the node is at least q *)
      assert (HI : hi (tn_kvs n)).
      { destruct (Z.ltb_spec 0 cmp) as [GT|]; [apply shi_hi, C2; auto|]. rewrite orb_false_r in C. apply Nat.leb_le in C. apply short_hi; auto. apply C3. lia. }
      destruct (first_split r P n PK T) as (A & b & B & EI & Tb & TA & CASES).
      destruct (first_append fp c NSS h s kvs SR RT it r P n A b B) as (d1 & EF & DD & AP1); auto; [lia|].
      rewrite LD. rewrite EF. cbn [bind]. rewrite <- LD, (d_isPrefix fp c ld h E1 E2 n R). cbn [bind].
      assert (HR : forall rest, bef r ++ rest = kvs -> hi rest).
      { intros rest E. rewrite <- EK in E. apply app_inv_head in E. subst rest. apply hi_app. split; auto. now apply shi_hi. }
      assert (EN : ends (cmp =? 0)%Z (bef r)).
      { split; [|destruct (Z.eqb_spec cmp 0) as [Z|Z];
          [|symmetry; apply (gt_nostub n NIn TWn PR); apply C2; lia]].
        2:{ subst cmp. rewrite orb_false_r in C. apply Nat.leb_le in C. specialize (C3 eq_refl).
          assert (EQ' : ndpath n = q) by (apply is_prefix_eq; auto; rewrite (ndpath_length n Wn); auto).
          destruct (top_at NSS kvs linked RT r PK _ _ T) as (Q & AT). unfold stub, stubb. rewrite <- EQ'.
          rewrite (node_level kvs NSS linked RT NI _ _ n AT) by (apply in_or_app; right; now left).
          destruct (Nat.ltb_spec (length r) h); [|lia]. rewrite andb_true_r. symmetry.
          destruct (Nat.lt_ge_cases (length (tn_kvs n)) 2) as [L2|L2]; [|rewrite (node_split kvs n NIn L2); reflexivity].
          destruct TWn as [|D0]; [lia|]. rewrite (ndpath_length n Wn), D0. cbn [Nat.eqb]. rewrite andb_true_r. apply orb_true_iff. right. apply Nat.eqb_eq. rewrite map_length.
          pose proof (w_ne n Wn) as NE. destruct r as [|g r].
          - destruct T as [_ EN]. rewrite EN in L2, NE. cbn [mknode tn_kvs] in L2, NE. destruct kvs as [|a [|a' l]]; [congruence|reflexivity|cbn [length] in L2; lia].
          - exfalso. destruct T as (HC & EN & _). rewrite EN in L2. change (tn_kvs (mkchild (f_it g))) with (i_grp (f_it g)) in L2. unfold hasc in HC. apply Nat.ltb_lt in HC. lia. }
        intros EC0 e rest E. apply Z.eqb_eq in EC0. subst cmp. rewrite orb_false_r in C. apply Nat.leb_le in C. specialize (C3 eq_refl).
        rewrite <- EK in E. apply app_inv_head in E. pose proof (w_ne n Wn) as NE. destruct (tn_kvs n) as [|e0 l0] eqn:EQ; [congruence|]. cbn [app] in E. assert (e = e0) by congruence. subst e0.
        assert (EQ' : ndpath n = q) by (apply is_prefix_eq; auto; rewrite (ndpath_length n Wn); auto). rewrite <- EQ'. apply ndpath_prefix; auto. rewrite EQ. now left. }
      destruct CASES as [(t & e & -> & Tt & Gt & NT)|(-> & NT)]; rewrite NT; cbn [bind].
      - eexists _, _. split; [reflexivity|]. apply (D1 _ _ (bef r)); auto. eexists _, _. apply (dstop_term NSS h kvs false true _ (mkF P n [t] b B) r t e); auto.
        + now apply ds_flags, ds_at.
        + repeat split.
      - destruct (moveLeft_spec fp c NSS h s kvs SR RT d1 _ _ DD) as (d2 & -> & ST); [congruence|]. cbn [bind]. eexists _, _. split; [reflexivity|].
        cbn [bef f_A map concat] in ST. rewrite app_nil_r in ST. apply (D1 _ _ (bef r)); auto. }
    apply orb_false_iff in C as [CL CZ]. apply Nat.leb_gt in CL. apply Z.ltb_ge in CZ. assert (PN : is_prefix (ndpath n) q) by (apply C3; lia).
    set (k := nth (tn_d n) q 0). assert (HK : nth_error q (tn_d n) = Some k) by (now apply nth_error_nth').
    rewrite (proj2 (idx_Ok _ _ _) HK). cbn [bind]. assert (LK : k < 256) by (apply key_byte; exact Wq).
    destruct (append_spec fp c NSS h s kvs SR RT it r P n k) as (ps & pl & EA & L1 & L2 & S1 & S2); auto; [lia|].
    rewrite LD, EA. cbn [bind]. rewrite <- LD, (d_label fp c ld h E1 E2 n R k LK). cbn [bind].
    set (it2 := d_setKey (d_setPos it ps pl) (ndpath n ++ [k])).
    destruct (label_find n CL) as [(A & x & B & EI & Tx & Lx)|ABS].
    + assert (Ix : In x (items n)) by (rewrite EI; apply in_or_app; right; now left). fold k in Lx.
      assert (EX : existsb (fun it : item => noterm it && (i_label it =? k)) (items n) = true) by (apply (bits_item noterm); exists x; unfold noterm; rewrite Tx; auto).
      rewrite EX. cbn [negb]. rewrite <- Lx, (hasc_bit fp c ld h E1 E2 n R W x Ix Tx). cbn [bind].
      destruct (present_split n NIn TWn A x B PN CL EI Tx Lx) as [PA PB]. set (f := mkF P n A x B).
      assert (FL : flab f = k) by exact Lx. assert (D : DS it2 f r).
      { constructor; cbn [it2 f d_setKey d_setPos d_level d_pos d_plen d_key f_it f_n]; auto.
        - constructor; auto.
        - cbn [SurfIterDense.dslots]. rewrite FL. auto.
        - now rewrite FL.
        - cbn [SurfIterPath.pok f_P f_n f_A f_it f_B]. auto.
        - lia. }
      assert (LBF : lo (bef (f :: r))) by (cbn [bef f f_A]; apply lo_app; auto).
      assert (SAF : shi (aft (f :: r))) by (cbn [aft f f_B]; apply shi_app; auto).
      assert (PF : is_prefix (ndpath n ++ [i_label x]) q).
      { rewrite Lx. pose proof PN as PN'. apply is_prefix_firstn_iff in PN'. rewrite (ndpath_length n Wn) in PN'. rewrite <- PN'. now apply firstn_nth_prefix. }
      destruct (hasc x) eqn:HC; cbn [negb].
      * (* down *)
        assert (TC : topn (f :: r) (kids f) (mkchild x)) by (repeat split; auto).
        pose proof (child_id fp c NSS h s kvs SR RT it2 f r _ _ D TC) as CI. change (f_P f) with P in CI. change (flab f) with (i_label x) in CI. rewrite LD, CI. cbn [bind].
        destruct (top_npath NSS kvs linked wf RT r f _ _ (ds_pok _ _ _ _ _ _ D) TC) as [NP PDC]. change (f_n f) with n in NP, PDC. change (flab f) with (i_label x) in NP.
        rewrite <- PDC. apply (IH _ (f :: r) (kids f) (mkchild x)); auto.
        -- apply (ds_pok _ _ _ _ _ _ D).
        -- cbn [length]. lia.
        -- destruct (ds_len _ _ _ _ _ _ D). constructor; auto.
        -- apply (ds_slots _ _ _ _ _ _ D).
        -- cbn [d_setLevel d_level length]. now rewrite (ds_level _ _ _ _ _ _ D).
        -- cbn [d_setLevel d_key]. rewrite (ds_key _ _ _ _ _ _ D). symmetry. exact NP.
        -- rewrite NP. exact PF.
      * (* leaf *)
        destruct (item_leaf n x Ix HC) as (e & G). unfold d_compareSuffix.
        rewrite (d_suffixPos_leaf fp c ld h E1 E2 n R W A x B EI Tx HC). cbn [bind].
        assert (LJ : nth_error (leaves (E1 ++ n :: E2)) (length (filter leafb (flat_map items E1 ++ A))) = Some x) by now apply (leaves_split E1 E2 n A x B).
        assert (LKO : leaf_ok c x).
        { pose proof (lo_dense c NSS h LO) as LD'. rewrite EC in LD'. rewrite Forall_forall in LD'. apply LD'. eapply nth_error_In; eauto. }
        destruct (leaf_cmp (ld_suffixes ld) (leaves (E1 ++ n :: E2)) _ n x e r P PK T (ldr_suf _ _ _ _ _ R) LJ LKO Ix Tx G PN CL Lx) as (NR & ->). cbn [bind].
        assert (VC : (zcmp (verdict (c_realLen c) (length (dprefix keys (fst e))) (fst e) q) <? 0)%Z = match verdict (c_realLen c) (length (dprefix keys (fst e))) (fst e) q with Lt => true | _ => false end) by (destruct (verdict _ _ _ _); reflexivity).
        rewrite VC. clear VC. destruct (verdict (c_realLen c) (length (dprefix keys (fst e))) (fst e) q) eqn:VD.
        2:{ destruct (next_res it2 f r D AP LBF) as (d' & -> & RES); auto. { intros e' He'. cbn [f f_it] in He'. rewrite G in He'. destruct He' as [<-|[]]. left. auto. } { apply (near_nostub _ NR). lia. }
           cbn [bind]. eexists _, _. split; [reflexivity|exact RES]. }
        all: eexists _, _; (split; [reflexivity|]); apply (D2 _ _ (bef (f :: r)) e (aft (f :: r))); auto;
           [apply dcomp_leaf; auto; [now apply ds_flags|repeat split]|left; split; [exact NR|rewrite VD; reflexivity]].
    + assert (EX : existsb (fun it : item => noterm it && (i_label it =? k)) (items n) = false).
      { destruct (existsb _ _) eqn:E; auto. apply (bits_item noterm) in E as (x & Ix & Tx & Lx). exfalso. apply (ABS x Ix); auto. unfold noterm in Tx. now destruct (i_term x). }
      rewrite EX. cbn [negb]. destruct (absent_split n NIn TWn PN CL ABS) as (A & B & EI & HA & HB & LA & SB).
      unfold d_next. rewrite (ldr_h _ _ _ _ _ R). destruct (Nat.eqb_spec h 0) as [|_]; [lia|]. cbn [it2 d_setKey d_setPos d_atPrefix d_level]. rewrite AP, LV. fold it2.
      destruct (next_climb fp c NSS h s kvs SR RT r it2 P n k A B) as (d' & -> & RES); auto.
      { lia. } { constructor; auto. } { cbn [it2 d_setKey d_key]. now exists [k]. }
      cbn [bind]. eexists _, _. split; [reflexivity|].
      assert (EK' : bef r ++ concat (map i_grp A) ++ (concat (map i_grp B) ++ aft r) = kvs).
      { rewrite <- EK, <- (items_kvs (tn_d n) (tn_kvs n)). fold (items n). rewrite EI, map_app, concat_app, <- !app_assoc. reflexivity. }
      destruct RES as [(A0 & V & DV)|(A0 & ST)].
      * apply D3; auto. rewrite <- EK', A0, app_nil_r. now apply lo_app.
      * apply (D1 _ _ (bef r ++ concat (map i_grp A))); auto; [now apply lo_app| |split; [discriminate|symmetry; eapply absent_nostub; eauto]]. intros rest E. rewrite (rest_of _ _ _ _ EK' E). apply shi_hi, shi_app. auto.
Qed.
End Seek.
