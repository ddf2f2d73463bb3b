(** * The sparse part of an iterator never leaves the vectors, wherever Seek has put it.

    SearchGreaterThan in a node with a terminator may pick a label of a later node, so the
    path an iterator holds need not be a path of the trie.  What always holds is weaker: the
    label position held for sparse level [i] lies in level [i] or a deeper one. *)
From Verif Require Import Base BitsModel BitsFacts VecModel VecProofs VecProofs2 SurfModel SurfTrie SurfSuffix SurfBuild SurfDense SurfEnc SurfBuildTop SurfGet SurfGet2 SurfSpec SurfWalk SurfTop SurfSuffix3 SurfIter SurfIterSpec SurfIterPath SurfIterDense SurfIterSparse SurfIterTop SurfIterMain SurfIterSeek.
Ltac Zify.zify_post_hook ::= Z.div_mod_to_equations.

Lemma pos_node X : forall p, p < length (flat_map items X) -> exists L1 m L2 A x B, X = L1 ++ m :: L2 /\ items m = A ++ x :: B /\ p = length (flat_map items L1) + length A.
Proof.
  induction X as [|m X IH]; intros p L; [cbn in L; lia|]. cbn [flat_map] in L. rewrite app_length in L. destruct (Nat.lt_ge_cases p (length (items m))) as [H|H].
  - destruct (nth_error (items m) p) as [x|] eqn:E; [|apply nth_error_None in E; lia]. destruct (nth_error_split _ _ E) as (A & B & EI & LA). exists [], m, X, A, x, B. cbn. auto.
  - destruct (IH (p - length (items m)) ltac:(lia)) as (L1 & m' & L2 & A & x & B & -> & EI & E). exists (m :: L1), m', L2, A, x, B. split; [reflexivity|]. split; [exact EI|].
    cbn [flat_map]. rewrite app_length. lia.
Qed.
Lemma concat_pos {T} (X : list (list T)) : forall L1 m L2, concat X = L1 ++ m :: L2 -> exists i P Q, nth_error X i = Some (P ++ m :: Q) /\ L1 = concat (firstn i X) ++ P.
Proof.
  induction X as [|a X IH]; intros L1 m L2 E; cbn [concat] in E; [now destruct L1|].
  destruct (app_eq_app _ _ _ _ E) as (l & [[E1 E2]|[E1 E2]]).
  - destruct l as [|y l].
    + cbn in E2. destruct (IH [] m L2) as (i & P & Q & H1 & H2); [now rewrite E2|]. exists (S i), P, Q. split; [exact H1|]. cbn [firstn concat]. rewrite app_nil_r in E1. rewrite <- app_assoc, <- H2, app_nil_r. congruence.
    + cbn in E2. inversion E2; subst. exists 0, L1, l. split; reflexivity.
  - destruct (IH l m L2 E2) as (i & P & Q & H1 & H2). exists (S i), P, Q. split; [exact H1|]. cbn [firstn concat]. rewrite E1, <- app_assoc. now f_equal.
Qed.
Lemma nth_error_skip {T} (l : list T) : forall i j, nth_error (skipn i l) j = nth_error l (i + j).
Proof. induction l as [|a l IH]; intros [|i] j; cbn; auto. now destruct j. Qed.
Lemma skip_skip {T} (l : list T) : forall i j, skipn i (skipn j l) = skipn (j + i) l.
Proof. induction l as [|a l IH]; intros i [|j]; cbn; auto. now destruct i. Qed.
Lemma firstn_add {T} (l : list T) i j : firstn (i + j) l = firstn i l ++ firstn j (skipn i l).
Proof. revert i. induction l as [|a l IH]; intros [|i]; cbn; auto. - now destruct j. - now rewrite IH. Qed.

(** sort.Search with any total test: the result is in range, and at the end or where the test holds. *)
Lemma sort_any (f : nat -> res bool) n : (forall i, i < n -> exists b, f i = Ok b) ->
  forall fuel i j, i <= j -> j <= n -> j - i <= fuel -> (j = n \/ f j = Ok true) -> exists r, sort_search fuel f i j = Ok r /\ r <= n /\ (r = n \/ f r = Ok true).
Proof.
  intros T. induction fuel as [|fuel IH]; intros i j L1 L2 L3 J; cbn [sort_search].
  - destruct (Nat.ltb_spec i j); [lia|]. assert (i = j) as -> by lia. eauto.
  - destruct (Nat.ltb_spec i j) as [L|L]; [|assert (i = j) as -> by lia; eauto]. destruct (T ((i + j) / 2)) as (b & E); [lia|]. rewrite E. cbn [bind]. destruct b; apply IH; auto; lia.
Qed.

Section Safe.
Variable fp : bytes -> N.
Variable c : config.
Variables (NSS : list (list tnode)) (h : nat) (s : surf) (kvs : list kv).
Hypothesis SR : surf_rep fp c NSS h s.
Hypothesis RT : nth_error NSS 0 = Some [mknode kvs 0].
Hypothesis CO : cfg_ok c.
Hypothesis LO : Forall (leaf_ok c) (leaves (concat NSS)).
Notation ls := (s_ls s).
Notation nid := (nid NSS).
Notation at_node := (at_node NSS).
Notation linked := (dw_linked fp c NSS h s SR).
Notation wf := (dw_wf fp c NSS h s SR).
Notation slen := (slen NSS h).
Notation spre := (spre NSS h).
Notation lvls := (length NSS - h).
Definition off (i : nat) : nat := length (flat_map items (concat (firstn i (skipn h NSS)))).
Definition NB : nat := length (flat_map items (concat (skipn h NSS))).
Definition inl (i p : nat) : Prop := off i <= p < NB.

Lemma off_mono i j : i <= j -> off i <= off j.
Proof.
  intros L. unfold off. replace j with (i + (j - i)) by lia. rewrite firstn_add, concat_app, flat_map_app, app_length. lia.
Qed.
Lemma inl_mono i j p : i <= j -> inl j p -> inl i p.
Proof. intros L [H1 H2]. split; auto. pose proof (off_mono i j L). lia. Qed.

Lemma inl_node i p : inl i p -> exists l P n Q A x B, h + i <= l /\ at_node l P n Q /\ items n = A ++ x :: B /\ p = length (flat_map items (spre (l - h) P)) + length A.
Proof.
  intros [L1 L2]. unfold off, NB in *. set (Y := skipn h NSS) in *.
  assert (EY : flat_map items (concat Y) = flat_map items (concat (firstn i Y)) ++ flat_map items (concat (skipn i Y))) by (rewrite <- flat_map_app, <- concat_app, firstn_skipn; reflexivity).
  rewrite EY, app_length in L2. destruct (pos_node (concat (skipn i Y)) (p - length (flat_map items (concat (firstn i Y)))) ltac:(lia)) as (M1 & m & M2 & A & x & B & E & EI & EP).
  destruct (concat_pos _ _ _ _ E) as (j & P & Q & EN & EM). exists (h + i + j), P, m, Q, A, x, B. split; [lia|]. split; [|split; [exact EI|]].
  - unfold SurfGet2.at_node. rewrite <- EN. unfold Y. rewrite !nth_error_skip. now rewrite Nat.add_assoc.
  - unfold SurfIterSparse.spre. fold Y. replace (h + i + j - h) with (i + j) by lia. rewrite firstn_add, concat_app, <- app_assoc, <- EM, flat_map_app, app_length. lia.
Qed.

(** A node of level [i] or deeper. *)
Definition gnode (i nd : nat) : Prop := exists l P n Q, h + i <= l /\ at_node l P n Q /\ nd = nid l P.

Lemma node_rep l P n Q : at_node l P n Q -> h <= l -> exists S2,
  ls_rep fp c ls (length NSS) h (concat (firstn h NSS)) (spre (l - h) P ++ n :: S2) /\ Forall nwf (spre (l - h) P ++ n :: S2) /\
  nid l P = length (concat (firstn h NSS)) + length (spre (l - h) P) /\ concat (skipn h NSS) = spre (l - h) P ++ n :: S2 /\
  NB = length (flat_map items (spre (l - h) P)) + length (items n) + length (flat_map items S2).
Proof.
  intros AT L. destruct (at_sparse NSS h l P n Q AT L) as [AS AF]. fold (spre (l - h) P) in AS. eexists. split; [rewrite <- AS; apply (sr_ls fp c NSS h s SR)|].
  split; [rewrite <- AS; apply (wf_sparse fp c NSS h s SR)|]. split; [|split; [exact AS|]].
  - unfold SurfGet2.nid, SurfIterSparse.spre. rewrite AF, !app_length. lia.
  - unfold NB. rewrite AS, flat_map_app, app_length. cbn [flat_map]. rewrite app_length. lia.
Qed.
Lemma NB_bits : bv_numBits (sv_bv (ls_louds ls)) = NB.
Proof.
  unfold NB. pose proof (lsr_louds _ _ _ _ _ _ _ (sr_ls fp c NSS h s SR)) as LR. pose proof (wf_sparse fp c NSS h s SR) as W.
  destruct LR as ((N1 & _) & _). rewrite N1. apply louds_length. exact W.
Qed.
Lemma at_off l P n Q : at_node l P n Q -> h <= l -> off (l - h) <= length (flat_map items (spre (l - h) P)).
Proof. intros _ _. unfold off, SurfIterSparse.spre. rewrite flat_map_app, app_length. lia. Qed.
Lemma at_lvls l P n Q : at_node l P n Q -> l < length NSS.
Proof. intros AT. apply nth_error_Some. unfold SurfGet2.at_node in AT. rewrite AT. discriminate. Qed.
Lemma gnode_lvl i nd : gnode i nd -> i < lvls.
Proof. intros (l & P & n & Q & L & AT & _). pose proof (at_lvls _ _ _ _ AT). lia. Qed.

(** What the vectors say at a node. *)
Lemma node_facts i nd : gnode i nd -> exists pid pre,
  ls_prefixID ls nd = Ok pid /\ getPrefix (ls_prefix ls) pid = Ok pre /\
  (exists p, ls_firstLabelPos ls nd = Ok p /\ inl i p) /\ (exists p, ls_lastLabelPos ls nd = Ok p /\ inl i p).
Proof.
  intros (l & P & n & Q & L & AT & ->). destruct (node_rep l P n Q AT ltac:(lia)) as (S2 & R & W & NI & EC & EN).
  assert (Wn : nwf n) by (apply Forall_app in W as [_ W]; now inversion W). pose proof (items_pos n Wn) as IP. pose proof (at_off _ _ _ _ AT ltac:(lia)) as OF. pose proof (off_mono i (l - h) ltac:(lia)).
  exists (length (spre (l - h) P)), (nprefix n). split; [|split; [|split]].
  - unfold ls_prefixID. rewrite (lsr_dn _ _ _ _ _ _ _ R), NI. unfold sub_chk. match goal with |- (if Nat.leb ?a ?b then _ else _) = _ => destruct (Nat.leb_spec a b); [|lia] end. f_equal. lia.
  - apply (s_prefix_at fp c _ _ _ _ _ _ _ R).
  - rewrite NI. eexists. split; [apply (s_firstLabelPos fp c _ _ _ _ _ _ _ R W)|]. unfold inl. lia.
  - rewrite NI. eexists. split; [apply (s_lastLabelPos fp c _ _ _ _ _ _ _ R W)|]. unfold inl. lia.
Qed.

(** What the vectors say at a label position. *)
Record leaf_at (p : nat) : Prop := {
  la_suffix : exists sp, ls_suffixPos ls p = Ok sp /\ (exists v, valueVector_get (ls_values ls) sp = Ok v) /\ forall q lv, exists cmp, suffix_compare (ls_suffixes ls) q sp lv = Ok cmp }.

Lemma cmp_total xv its j it q lv : sx_rep fp c xv its -> nth_error its j = Some it -> wf_bytes (fst (i_kv it)) = true -> exists cmp, suffix_compare xv q j lv = Ok cmp.
Proof.
  intros SX Hj Wk. unfold suffix_compare. assert (SX0 := SX). destruct SX as ((XT & XN) & X). rewrite XT in *.
  destruct (suffixType_eqb (c_type c) NoneSuffix || suffixType_eqb (c_type c) HashSuffix) eqn:CT; [rewrite <- orb_assoc, CT, orb_true_r; eauto|].
  apply orb_false_iff in CT as [C2 C3]. assert (NT : c_type c <> NoneSuffix) by (intros E; rewrite E in C2; discriminate).
  destruct (X NT) as (X1 & X2 & X3). match goal with |- context [if ?b then _ else _] => destruct b end; [eauto|].
  rewrite (suffix_read_stored fp c CO xv its j it SX0 NT Hj Wk). cbn [bind].
  assert (TOT : exists real, constructRealSuffix q lv (xv_realLen xv) = Ok real).
  { pose proof (sfx_spec fp RealSuffix 0 (xv_realLen xv) q lv) as Y. cbn [constructSuffix] in Y. eauto. }
  destruct TOT as (real & ->). cbn [bind]. repeat (match goal with |- context [if ?b then _ else _] => destruct b end; try (eexists; reflexivity)).
Qed.

Lemma pos_facts i p : inl i p -> exists lab hc b,
  getLabel (ls_label ls) p = Ok lab /\ rv_isSet (ls_hasChild ls) p = Ok hc /\ (exists e, ls_isEndOfNode ls p = Ok e) /\
  bv_isSet (sv_bv (ls_louds ls)) p = Ok b /\ (b = false -> exists p', p = S p' /\ inl i p') /\
  (hc = false -> leaf_at p) /\ (hc = true -> exists nd, ls_childNodeID ls p = Ok nd /\ gnode (S i) nd).
Proof.
  intros IL. destruct (inl_node i p IL) as (l & P & n & Q & A & x & B & L & AT & EI & ->). destruct (node_rep l P n Q AT ltac:(lia)) as (S2 & R & W & NI & EC & EN).
  pose proof (at_off _ _ _ _ AT ltac:(lia)) as OF. pose proof (off_mono i (l - h) ltac:(lia)) as OM.
  exists (i_label x), (hasc x), (Nat.eqb (length A) 0). split; [apply (s_getLabel fp c _ _ _ _ _ _ _ R A x B EI)|]. split; [apply (s_hasc fp c _ _ _ _ _ _ _ R A x B EI)|].
  split; [eexists; apply (s_isEnd fp c _ _ _ _ _ _ _ R W A x B EI)|]. split.
  { apply (s_isset fp c _ _ _ _ _ _ _ R W). rewrite EI, app_length. cbn [length]. lia. }
  split; [|split].
  - intros Z. apply Nat.eqb_neq in Z. exists (length (flat_map items (spre (l - h) P)) + (length A - 1)). unfold inl in *. lia.
  - intros HC. constructor. eexists. split; [apply (s_suffixPos fp c _ _ _ _ _ _ _ R A x B EI HC)|].
    assert (LJ : nth_error (leaves (spre (l - h) P ++ n :: S2)) (length (filter leafb (flat_map items (spre (l - h) P) ++ A))) = Some x) by now apply (leaves_split _ S2 n A x B).
    pose proof (lo_sparse c NSS h LO) as LS. rewrite EC in LS. split.
    + pose proof (lsr_val _ _ _ _ _ _ _ R) as [V1 V2]. unfold valueVector_get. rewrite V1, V2. rewrite (slice_flat (ivalue c) (c_valueSize c) _ _ x); [eauto| |exact LJ].
      intros y Hy. rewrite Forall_forall in LS. now apply LS.
    + intros q lv. eapply cmp_total; [apply (lsr_suf _ _ _ _ _ _ _ R)|exact LJ|]. rewrite Forall_forall in LS. apply (LS x). eapply nth_error_In; eauto.
  - intros HC. rewrite (s_childID fp c _ _ _ _ _ _ _ R A x B EI HC). eexists. split; [reflexivity|].
    destruct (child_at NSS linked (ex_intro _ _ RT) l P n Q A x B AT EI HC) as (P' & Q' & AT' & NI' & _). exists (S l), P', (mkchild x), Q'. split; [lia|]. split; [exact AT'|].
    rewrite NI'. do 3 f_equal. destruct (at_sparse NSS h l P n Q AT ltac:(lia)) as [_ AF]. rewrite AF. unfold SurfIterSparse.spre. now rewrite app_assoc.
Qed.

(** The first [k] levels of the path. *)
Record safe (it : sparseIter) (k : nat) : Prop := {
  sf_len : slen it;
  sf_k : k <= lvls;
  sf_pos : forall i, i < k -> inl i (nth i (p_pos it) 0);
  sf_pl : forall i, i < k -> 1 <= nth i (p_plen it) 0;
  sf_mono : forall i, S i < k -> nth i (p_plen it) 0 <= nth (S i) (p_plen it) 0 }.
Definition klen (it : sparseIter) (k : nat) : Prop := length (p_key it) = match k with 0 => 0 | S i => nth i (p_plen it) 0 end.
(** Inside the sparse part, at level [k]. *)
Definition inside (it : sparseIter) : Prop := safe it (S (p_level it)) /\ klen it (S (p_level it)).
Definition stands (it : sparseIter) : Prop := inside it /\ p_valid it = true /\ leaf_at (nth (p_level it) (p_pos it) 0).
Definition idle (it : sparseIter) : Prop := slen it /\ p_valid it = false /\ ((p_level it = 0 /\ p_key it = []) \/ inside it).

Lemma nth_set {A} (l : list A) i x d : i < length l -> nth i (set_nth l i x) d = x.
Proof. intros L. apply nth_error_nth. now apply set_nth_same. Qed.
Lemma nth_set_other {A} (l : list A) i j x d : i <> j -> nth j (set_nth l i x) d = nth j l d.
Proof.
  intros N. destruct (nth_error l j) as [y|] eqn:E.
  - rewrite (nth_error_nth _ _ _ E). apply nth_error_nth. rewrite set_nth_other; auto.
  - rewrite !nth_overflow; auto; [|rewrite set_nth_len]; now apply nth_error_None.
Qed.

Lemma append_any it nd lab p : safe it (p_level it) -> klen it (p_level it) -> gnode (p_level it) nd ->
  exists it', p_append ls it lab p nd = Ok it' /\ p_level it' = p_level it /\ safe it' (p_level it) /\ klen it' (S (p_level it)) /\ p_valid it' = p_valid it /\ p_atTerm it' = p_atTerm it /\ p_startDepth it' = p_startDepth it /\
    nth (p_level it) (p_pos it') 0 = p /\ 1 <= nth (p_level it) (p_plen it') 0 /\ (forall i, S i = p_level it -> nth i (p_plen it') 0 <= nth (p_level it) (p_plen it') 0).
Proof.
  intros [[L1 L2 L3] SK SP SPL SM] KL G. pose proof (gnode_lvl _ _ G) as GL. destruct (node_facts _ _ G) as (pid & pre & EPI & EP & _). unfold p_append. rewrite EPI. cbn [bind]. rewrite EP. cbn [bind].
  rewrite (upd_in _ _ _ ltac:(rewrite L1; exact GL)). cbn [bind].
  assert (B : (if Nat.eqb (p_level it) 0 then Ok 0 else idx (p_plen it) (p_level it - 1)) = Ok (length (p_key it))).
  { unfold klen in KL. destruct (p_level it) as [|k] eqn:EL; cbn [Nat.eqb]; [now rewrite KL|]. rewrite Nat.sub_succ, Nat.sub_0_r. apply idx_Ok. rewrite KL. apply nth_error_nth'. lia. }
  rewrite B. cbn [bind]. rewrite (upd_in _ _ _ ltac:(rewrite L3; exact GL)). cbn [bind]. rewrite (upd_in _ _ _ ltac:(rewrite L2; exact GL)). cbn [bind].
  eexists. split; [reflexivity|]. cbn [p_setKey p_setPos p_level p_pos p_plen p_valid p_atTerm p_startDepth p_key].
  assert (E0 : nth (p_level it) (set_nth (p_plen it) (p_level it) (length pre + 1 + length (p_key it))) 0 = length pre + 1 + length (p_key it)) by (apply nth_set; lia).
  split; [reflexivity|]. split; [|split; [|split; [reflexivity|split; [reflexivity|split; [reflexivity|split; [apply nth_set; lia|split; [lia|]]]]]]].
  - constructor; cbn [p_setKey p_setPos p_pos p_plen].
    + constructor; cbn [p_setKey p_setPos p_pos p_plen p_node]; rewrite set_nth_len; auto.
    + exact SK.
    + intros i Hi. rewrite nth_set_other by lia. auto.
    + intros i Hi. rewrite nth_set_other by lia. auto.
    + intros i Hi. rewrite !nth_set_other by lia. auto.
  - unfold klen. cbn [p_setKey p_setPos p_key p_plen]. rewrite E0, !app_length. cbn [length]. lia.
  - intros i Hi. rewrite E0, nth_set_other by lia. unfold klen in KL. rewrite <- Hi in KL. lia.
Qed.
Lemma safe_S it : safe it (p_level it) -> p_level it < lvls -> inl (p_level it) (nth (p_level it) (p_pos it) 0) -> 1 <= nth (p_level it) (p_plen it) 0 ->
  (forall i, S i = p_level it -> nth i (p_plen it) 0 <= nth (p_level it) (p_plen it) 0) -> safe it (S (p_level it)).
Proof.
  intros [L SK SP SPL SM] LV IL PL MO. constructor; auto.
  - intros i Hi. destruct (Nat.eq_dec i (p_level it)) as [->|]; auto. apply SP. lia.
  - intros i Hi. destruct (Nat.eq_dec i (p_level it)) as [->|]; auto. apply SPL. lia.
  - intros i Hi. destruct (Nat.eq_dec (S i) (p_level it)) as [E|]; [rewrite E; auto|]. apply SM. lia.
Qed.
Lemma append_in it nd lab p : safe it (p_level it) -> klen it (p_level it) -> gnode (p_level it) nd -> inl (p_level it) p ->
  exists it', p_append ls it lab p nd = Ok it' /\ p_level it' = p_level it /\ inside it' /\ p_valid it' = p_valid it /\ p_atTerm it' = p_atTerm it /\ p_startDepth it' = p_startDepth it /\ nth (p_level it') (p_pos it') 0 = p.
Proof.
  intros S K G IL. destruct (append_any it nd lab p S K G) as (it' & E & LV & S' & K' & V & AT & SD & NP & PL & MO). exists it'. pose proof (gnode_lvl _ _ G) as GL.
  assert (I2 : inside it'). { split; rewrite ?LV; auto. rewrite <- LV. apply safe_S; rewrite ?LV; auto. now rewrite NP. }
  split; [exact E|]. split; [exact LV|]. split; [exact I2|]. rewrite LV. auto.
Qed.

Lemma finish_ok it lab p : inside it -> nth (p_level it) (p_pos it) 0 = p -> leaf_at p -> exists it', p_finish ls it lab p = Ok it' /\ stands it' /\ p_startDepth it' = p_startDepth it.
Proof.
  intros I EP LA. assert (IL : inl (p_level it) p) by (rewrite <- EP; apply (sf_pos _ _ (proj1 I)); lia). destruct (pos_facts _ _ IL) as (_ & _ & _ & _ & _ & (e & EE) & _).
  unfold p_finish. rewrite EE. assert (EX : exists t, (if Nat.eqb lab labelTerminator then e0 <- Ok e ;; Ok (negb e0) else Ok false) = Ok t) by (destruct (Nat.eqb lab labelTerminator); cbn [bind]; eauto).
  destruct EX as (t & ->). cbn [bind]. eexists. split; [reflexivity|]. destruct I as [[[] ? ? ? ?] ?]. split; [|now destruct t].
  destruct t; (split; [split; [constructor; auto; constructor; auto|auto]|split; [reflexivity|]]); cbn [p_setValid p_setAtTerm p_level p_pos]; now rewrite EP.
Qed.

Lemma child_pos (left : bool) i nd : gnode i nd -> exists p, (if left then ls_firstLabelPos ls else ls_lastLabelPos ls) nd = Ok p /\ inl i p.
Proof. intros G. destruct (node_facts i nd G) as (_ & _ & _ & _ & F & L). now destruct left. Qed.

Lemma set_level_safe it l k : safe it k -> safe (p_setLevel it l) k.
Proof. intros [[] ? ? ? ?]. constructor; auto. constructor; auto. Qed.

Lemma down_safe (left : bool) todo : forall it p, inside it -> nth (p_level it) (p_pos it) 0 = p -> rv_isSet (ls_hasChild ls) p = Ok true -> lvls <= todo + p_level it ->
  exists it', p_down_loop (if left then ls_firstLabelPos ls else ls_lastLabelPos ls) todo ls it p = Ok it' /\ stands it' /\ p_startDepth it' = p_startDepth it.
Proof.
  induction todo as [|todo IH]; intros it p [S K] EP HC LT; pose proof (sf_k _ _ S) as SK; [lia|].
  assert (IL : inl (p_level it) p) by (rewrite <- EP; apply (sf_pos _ _ S); lia). destruct (pos_facts _ _ IL) as (lab & hc & b & _ & EH & _ & _ & _ & _ & CH).
  rewrite HC in EH. apply Ok_eq in EH. subst hc. destruct (CH eq_refl) as (nd & EN & G). cbn [p_down_loop]. rewrite EN. cbn [bind].
  destruct (child_pos left _ _ G) as (p' & -> & IL'). cbn [bind]. destruct (pos_facts _ _ IL') as (lab' & hc' & b' & -> & EH' & _ & _ & _ & LA & _). cbn [bind]. rewrite EH'. cbn [bind].
  destruct (append_in (p_setLevel it (Datatypes.S (p_level it))) nd lab' p') as (it2 & -> & LV & I2 & V & AT & SD & NP); auto; [now apply set_level_safe|]. cbn [bind]. cbn [p_setLevel p_level p_startDepth] in LV, SD.
  destruct hc'; cbn [negb].
  - destruct (IH it2 p' I2 NP EH') as (it' & E & ST & SD'); [lia|]. exists it'. rewrite SD', SD. auto.
  - destruct (finish_ok it2 lab' p' I2 NP (LA eq_refl)) as (it' & E & ST & SD'). exists it'. rewrite SD', SD. auto.
Qed.

Lemma sparse_lvls : ls_sparseLevels ls = lvls.
Proof. unfold ls_sparseLevels. rewrite (lsr_height _ _ _ _ _ _ _ (sr_ls fp c NSS h s SR)), (lsr_start _ _ _ _ _ _ _ (sr_ls fp c NSS h s SR)). reflexivity. Qed.

Lemma move_inside (left : bool) it : inside it -> exists it', p_move (if left then ls_firstLabelPos ls else ls_lastLabelPos ls) ls it = Ok it' /\ stands it' /\ p_startDepth it' = p_startDepth it.
Proof.
  intros I. pose proof I as [S K]. assert (PL : 1 <= length (p_key it)) by (rewrite K; apply (sf_pl _ _ S); lia).
  rewrite p_move_eq by (destruct (p_key it); [cbn in PL; lia|discriminate]). pose proof (sf_k _ _ S) as SK. destruct (sf_len _ _ S) as [L1 L2 L3].
  assert (EI : idx (p_pos it) (p_level it) = Ok (nth (p_level it) (p_pos it) 0)) by (apply idx_Ok; apply nth_error_nth'; lia). rewrite EI. cbn [bind].
  assert (IL : inl (p_level it) (nth (p_level it) (p_pos it) 0)) by (apply (sf_pos _ _ S); lia). destruct (pos_facts _ _ IL) as (lab & hc & b & -> & EH & _ & _ & _ & LA & _). cbn [bind]. rewrite EH. cbn [bind].
  destruct hc; cbn [negb].
  - apply down_safe; auto. rewrite sparse_lvls. lia.
  - apply finish_ok; auto.
Qed.
(** Entering the sparse part, with whatever a previous use has left. *)
Lemma move_idle (left : bool) it nd d : idle it -> gnode 0 nd ->
  exists it', p_move (if left then ls_firstLabelPos ls else ls_lastLabelPos ls) ls (p_setStart it nd d) = Ok it' /\ stands it' /\ p_startDepth it' = d.
Proof.
  intros (SL & V & [[L0 K0]|I]) G.
  - unfold p_move. cbn [p_setStart p_key p_startNode]. rewrite K0. destruct (child_pos left 0 nd G) as (p & -> & IL). cbn [bind].
    destruct (pos_facts _ _ IL) as (lab & hc & b & EL & EH & _ & _ & _ & LA & _). rewrite EL. cbn [bind].
    destruct (append_in (p_setStart it nd d) nd lab p) as (it2 & -> & LV & I2 & V2 & AT & SD & NP); cbn [p_setStart p_level]; rewrite ?L0; auto.
    { constructor; cbn [p_setStart]; try lia. destruct SL. constructor; auto. } { unfold klen. cbn [p_setStart p_key]. now rewrite K0. }
    cbn [p_setStart p_level p_startDepth] in LV, SD. cbn [bind]. pose proof I2 as [S2 K2]. pose proof (sf_k _ _ S2) as SK. destruct (sf_len _ _ S2) as [L1 L2 L3].
    assert (EI : idx (p_pos it2) (p_level it2) = Ok p) by (apply idx_Ok; rewrite <- NP; apply nth_error_nth'; lia). rewrite EI. cbn [bind]. rewrite EL. cbn [bind]. rewrite EH. cbn [bind].
    destruct hc; cbn [negb].
    + destruct (down_safe left (ls_sparseLevels ls - p_level it2) it2 p I2 NP EH) as (it' & E & ST & SD'); [rewrite sparse_lvls; lia|]. exists it'. rewrite SD', SD. auto.
    + destruct (finish_ok it2 lab p I2 NP (LA eq_refl)) as (it' & E & ST & SD'). exists it'. rewrite SD', SD. auto.
  - assert (I' : inside (p_setStart it nd d)) by (destruct I as [[[] ? ? ? ?] ?]; split; auto; constructor; auto; constructor; auto).
    destruct (move_inside left _ I') as (it' & E & ST & SD). exists it'. auto.
Qed.

(** Standing on a key again, or run off the sparse subtrie. *)
Definition moved_to (it it' : sparseIter) : Prop := p_startDepth it' = p_startDepth it /\ (stands it' \/ idle it').

Lemma setAt_safe it k p : p_level it = k -> safe it (S k) -> nth k (p_plen it) 0 <= length (p_key it) -> inl k p ->
  exists it', p_setAt ls it p = Ok it' /\ inside it' /\ p_startDepth it' = p_startDepth it /\ nth (p_level it') (p_pos it') 0 = p.
Proof.
  intros LV S KL IL. pose proof (sf_k _ _ S) as SK. destruct (sf_len _ _ S) as [L1 L2 L3]. pose proof (sf_pl _ _ S k ltac:(lia)) as PL. unfold p_setAt. rewrite LV.
  assert (EI : idx (p_plen it) k = Ok (nth k (p_plen it) 0)) by (apply idx_Ok; apply nth_error_nth'; lia). rewrite EI. cbn [bind].
  unfold sub_chk. destruct (Nat.leb_spec 1 (nth k (p_plen it) 0)); [|lia]. cbn [bind].
  assert (ES : slice (p_key it) 0 (nth k (p_plen it) 0 - 1) = Ok (firstn (nth k (p_plen it) 0 - 1) (p_key it))).
  { apply slice_firstn. lia. }
  rewrite ES. cbn [bind]. destruct (pos_facts _ _ IL) as (lab & _ & _ & -> & _). cbn [bind]. rewrite upd_in by lia. cbn [bind].
  eexists. split; [reflexivity|]. cbn [p_setKey p_setPos p_level p_startDepth p_pos]. rewrite LV. split; [|split; [reflexivity|apply nth_set; lia]].
  unfold inside. cbn [p_setKey p_setPos p_level]. rewrite LV. split.
  - constructor; cbn [p_setKey p_setPos p_pos p_plen].
    + constructor; cbn [p_setKey p_setPos p_pos p_plen p_node]; rewrite ?set_nth_len; auto.
    + exact SK.
    + intros i Hi. destruct (Nat.eq_dec i k) as [->|]; [rewrite nth_set by lia; exact IL|]. rewrite nth_set_other by lia. apply (sf_pos _ _ S). lia.
    + apply (sf_pl _ _ S).
    + apply (sf_mono _ _ S).
  - unfold klen. cbn [p_setKey p_setPos p_key p_plen]. rewrite app_length, firstn_length. cbn [length]. lia.
Qed.

Lemma climbed it : slen it -> idle (p_setKey (p_setValid (p_setLevel it 0) false) []).
Proof. intros []. split; [constructor; auto|]. split; [reflexivity|]. left. auto. Qed.

Lemma safe_pred it k : safe it (S k) -> safe it k.
Proof. intros [? ? ? ? ?]. constructor; auto. lia. Qed.
Lemma rd {it : sparseIter} : slen it -> forall m, m < lvls -> idx (p_pos it) m = Ok (nth m (p_pos it) 0) /\ idx (p_node it) m = Ok (nth m (p_node it) 0).
Proof. intros [L1 L2 L3] m Lm. split; apply idx_Ok; apply nth_error_nth'; lia. Qed.
Lemma next_up m p : inl m p \/ p = NB ->
  exists up, (if Nat.leb (bv_numBits (sv_bv (ls_louds ls))) (p + 1) then Ok true else bv_isSet (sv_bv (ls_louds ls)) (p + 1)) = Ok up /\ (up = false -> inl m p /\ inl m (p + 1)).
Proof.
  intros IL. rewrite NB_bits. destruct (Nat.leb_spec NB (p + 1)); [exists true; split; [reflexivity|discriminate]|]. assert (IL' : inl m (p + 1)) by (unfold inl in *; lia).
  destruct (pos_facts _ _ IL') as (_ & _ & b & _ & _ & _ & EB & _). exists b. split; [exact EB|]. intros _. split; auto. unfold inl in *; lia.
Qed.
Lemma next_stay m it : safe it m -> m < lvls -> inl m (nth m (p_pos it) 0) -> inl m (nth m (p_pos it) 0 + 1) -> 1 <= nth m (p_plen it) 0 ->
  (forall i, S i = m -> nth i (p_plen it) 0 <= nth m (p_plen it) 0) -> nth m (p_plen it) 0 <= length (p_key it) ->
  exists it', (it2 <- p_setAt ls (p_setLevel it m) (nth m (p_pos it) 0 + 1) ;; p_moveLeft ls it2) = Ok it' /\ moved_to it it'.
Proof.
  intros S LK IL IL' PL MO KL. destruct (setAt_safe (p_setLevel it m) m (nth m (p_pos it) 0 + 1)) as (it2 & -> & I2 & SD & _); auto.
  { apply (safe_S (p_setLevel it m)); auto. now apply set_level_safe. }
  cbn [bind]. destruct (move_inside true it2 I2) as (it' & E & ST & SD'). exists it'. split; [exact E|]. split; [now rewrite SD', SD|now left].
Qed.
Lemma next_climb_safe k : forall it, safe it k -> k < lvls -> (inl k (nth k (p_pos it) 0) \/ nth k (p_pos it) 0 = NB) -> 1 <= nth k (p_plen it) 0 ->
  (forall i, S i = k -> nth i (p_plen it) 0 <= nth k (p_plen it) 0) -> nth k (p_plen it) 0 <= length (p_key it) ->
  exists it', p_next_climb k ls it = Ok it' /\ moved_to it it'.
Proof.
  induction k as [|k IH]; intros it S LK IL PL MO KL; pose proof (sf_len _ _ S) as SL; cbn [p_next_climb];
    destruct (rd SL _ LK) as [-> ->]; cbn [bind]; destruct (next_up _ _ IL) as (up & -> & UF); cbn [bind]; destruct up.
  - eexists. split; [reflexivity|]. split; [reflexivity|]. right. now apply climbed.
  - destruct (UF eq_refl). now apply next_stay.
  - apply IH; auto.
    + now apply safe_pred.
    + lia.
    + left. apply (sf_pos _ _ S). lia.
    + apply (sf_pl _ _ S). lia.
    + intros i <-. apply (sf_mono _ _ S). lia.
    + specialize (MO k eq_refl). lia.
  - destruct (UF eq_refl). now apply next_stay.
Qed.
Lemma set_term_safe it b k : safe it k -> safe (p_setAtTerm it b) k.
Proof. intros [[] ? ? ? ?]. constructor; auto. constructor; auto. Qed.

Lemma next_safe it : inside it -> exists it', p_next ls it = Ok it' /\ moved_to it it'.
Proof.
  intros [S K]. unfold p_next. destruct (next_climb_safe (p_level it) (p_setAtTerm it false)) as (it' & E & M); cbn [p_setAtTerm p_pos p_plen p_key].
  - apply set_term_safe. now apply safe_pred.
  - apply (sf_k _ _ S).
  - left. apply (sf_pos _ _ S). lia.
  - apply (sf_pl _ _ S). lia.
  - intros i Hi. rewrite <- Hi. apply (sf_mono _ _ S). lia.
  - rewrite K. lia.
  - exists it'. auto.
Qed.

Lemma prev_stay m it p : safe it (S m) -> inl m p -> nth m (p_plen it) 0 <= length (p_key it) ->
  exists it', (q <- sub_chk (S p) 1 ;; it2 <- p_setAt ls (p_setLevel it m) q ;; p_moveRight ls it2) = Ok it' /\ moved_to it it'.
Proof.
  intros S IL KL. unfold sub_chk. cbn [Nat.leb bind]. rewrite Nat.sub_succ, Nat.sub_0_r.
  destruct (setAt_safe (p_setLevel it m) m p) as (it2 & -> & I2 & SD & _); auto; [now apply set_level_safe|].
  cbn [bind]. destruct (move_inside false it2 I2) as (it' & E & ST & SD'). exists it'. split; [exact E|]. split; [now rewrite SD', SD|now left].
Qed.
Lemma prev_climb_safe k : forall it, safe it (S k) -> nth k (p_plen it) 0 <= length (p_key it) -> exists it', p_prev_climb k ls it = Ok it' /\ moved_to it it'.
Proof.
  induction k as [|k IH]; intros it S KL; pose proof (sf_len _ _ S) as SL; pose proof (sf_k _ _ S) as SK; cbn [p_prev_climb];
    (destruct (rd SL _ SK) as [-> ->]); cbn [bind];
    match type of KL with nth ?m _ _ <= _ => pose proof (sf_pos _ _ S m ltac:(lia)) as IL end;
    destruct (pos_facts _ _ IL) as (_ & _ & b & _ & _ & _ & -> & BF & _); cbn [bind]; destruct b.
  - eexists. split; [reflexivity|]. split; [reflexivity|]. right. now apply climbed.
  - destruct (BF eq_refl) as (p' & -> & IL'). now apply prev_stay.
  - apply IH; [now apply safe_pred|]. pose proof (sf_mono _ _ S k ltac:(lia)). lia.
  - destruct (BF eq_refl) as (p' & -> & IL'). now apply prev_stay.
Qed.
Lemma prev_safe it : inside it -> exists it', p_prev ls it = Ok it' /\ moved_to it it'.
Proof.
  intros [S K]. unfold p_prev. cbn [p_setAtTerm p_pos p_level p_node]. destruct (sf_len _ _ S) as [L1 L2 L3]. pose proof (sf_k _ _ S) as SK.
  assert (EI : idx (p_pos it) (p_level it) = Ok (nth (p_level it) (p_pos it) 0)) by (apply idx_Ok; apply nth_error_nth'; lia). rewrite EI; cbn [bind].
  assert (EI2 : idx (p_node it) (p_level it) = Ok (nth (p_level it) (p_node it) 0)) by (apply idx_Ok; apply nth_error_nth'; lia). rewrite EI2; cbn [bind].
  pose proof (set_term_safe it false _ S) as S'. destruct (Nat.eqb (nth (p_level it) (p_pos it) 0) 0).
  - eexists. split; [reflexivity|]. split; [reflexivity|]. right. split; [constructor; auto|]. split; [reflexivity|]. right. split; [|exact K]. destruct S' as [[] ? ? ? ?]. constructor; auto. constructor; auto.
  - destruct (prev_climb_safe (p_level it) (p_setAtTerm it false) S') as (it' & E & M); [cbn [p_setAtTerm p_plen p_key]; rewrite K; lia|]. exists it'. auto.
Qed.
(** ** Seek *)
Lemma labels_len : length (ls_label ls) = NB + 1.
Proof. rewrite (lsr_label _ _ _ _ _ _ _ (sr_ls fp c NSS h s SR)), app_length, map_length. reflexivity. Qed.
Lemma labels_last : idx (ls_label ls) NB = Ok 0.
Proof.
  apply idx_Ok. rewrite (lsr_label _ _ _ _ _ _ _ (sr_ls fp c NSS h s SR)), nth_error_app2 by (rewrite map_length; unfold NB; lia). rewrite map_length. unfold NB. now rewrite Nat.sub_diag.
Qed.
Lemma label_ok p : p <= NB -> exists l, idx (ls_label ls) p = Ok l.
Proof. intros L. destruct (nth_error (ls_label ls) p) as [l|] eqn:E; [exists l; now apply idx_Ok|]. apply nth_error_None in E. rewrite labels_len in E. lia. Qed.

Lemma skip_range L st sz : (exists l, idx L st = Ok l) -> exists a b, skip_terminator L st sz = Ok (a, b) /\ st <= a <= S st /\ a + b = st + sz /\ (1 <= sz -> 1 <= b).
Proof.
  intros (l & E). unfold skip_terminator. destruct (Nat.ltb_spec 1 sz); [|exists st, sz; repeat split; auto; lia]. rewrite E. cbn [bind]. destruct (Nat.eqb l labelTerminator); eexists _, _; (split; [reflexivity|]); lia.
Qed.
Lemma search_false L k st sz p : (exists l, idx L st = Ok l) -> label_search L k st sz = Ok (p, false) -> st <= p <= S st.
Proof.
  intros E. destruct (skip_range L st sz E) as (a & b & ES & R & _). unfold label_search. rewrite ES. cbn [bind]. destruct (slice _ _ _) as [x| |]; [|discriminate|discriminate]. cbn [bind].
  destruct (indexByte x k); [discriminate|]. intros H. apply Ok_eq in H. assert (a = p) by congruence. lia.
Qed.
Lemma gt_any k st sz : 1 <= sz -> st + sz <= NB + 1 -> exists p ok, label_search_gt (ls_label ls) k st sz = Ok (p, ok) /\ st <= p <= NB /\ (ok = true -> p < NB).
Proof.
  intros L1 L2. destruct (skip_range (ls_label ls) st sz) as (a & b & ES & R & EA & LB); [apply label_ok; lia|]. specialize (LB L1). unfold label_search_gt. rewrite ES. cbn [bind].
  destruct (sort_any (fun i => l <- idx (ls_label ls) (a + i) ;; Ok (Nat.ltb k l)) b) with (fuel := b) (i := 0) (j := b) as (r & -> & Lr & C); try lia; auto.
  { intros i Hi. destruct (label_ok (a + i)) as (l & ->); [lia|]. cbn [bind]. eauto. }
  cbn [bind]. destruct (Nat.eqb_spec r b) as [->|NE].
  - eexists _, _. split; [reflexivity|]. split; [lia|discriminate].
  - eexists _, _. split; [reflexivity|]. split; [lia|]. intros _. destruct C as [|C]; [lia|]. destruct (Nat.eq_dec (a + r) NB) as [E|]; [|lia]. rewrite E, labels_last in C. cbn [bind] in C. apply Ok_eq in C. apply Nat.ltb_lt in C. lia.
Qed.

Lemma cmp_any p q d : d <= length q -> exists cmp, prefix_cmp p q d = Ok cmp.
Proof.
  intros L. destruct (prefix_cmp_spec (firstn d q) p q) as (cmp & E & _); [exists (skipn d q); now rewrite firstn_skipn|]. rewrite firstn_length, Nat.min_l in E by lia. eauto.
Qed.

Lemma next_after it : slen it -> safe it (p_level it) -> p_level it < lvls -> nth (p_level it) (p_pos it) 0 <= NB -> off (p_level it) <= nth (p_level it) (p_pos it) 0 -> 1 <= nth (p_level it) (p_plen it) 0 ->
  (forall i, S i = p_level it -> nth i (p_plen it) 0 <= nth (p_level it) (p_plen it) 0) -> klen it (S (p_level it)) -> exists it', p_next ls it = Ok it' /\ moved_to it it'.
Proof.
  intros SL S LL LP LO' PL MO K. unfold p_next. destruct (next_climb_safe (p_level it) (p_setAtTerm it false)) as (it' & E & M); cbn [p_setAtTerm p_pos p_plen p_key]; auto.
  - now apply set_term_safe.
  - unfold inl. lia.
  - rewrite K. lia.
  - exists it'. auto.
Qed.

Lemma seek_loop_safe q todo : forall it nd pos depth, safe it (p_level it) -> klen it (p_level it) -> p_valid it = false -> gnode (p_level it) nd -> ls_firstLabelPos ls nd = Ok pos -> depth <= length q -> lvls <= todo + p_level it ->
  exists it' b, p_seek_loop todo ls it q nd pos depth = Ok (it', b) /\ moved_to it it'.
Proof.
  induction todo as [|todo IH]; intros it nd pos depth S K V G FP LD LT; pose proof (gnode_lvl _ _ G) as GL; [lia|]. cbn [p_seek_loop].
  destruct (node_facts _ _ G) as (pid & pre & -> & EP & (p0 & F0 & IL0) & _). rewrite F0 in FP. apply Ok_eq in FP. subst p0. cbn [bind]. rewrite EP. cbn [bind].
  destruct (cmp_any pre q depth LD) as (cmp & ->). cbn [bind]. destruct (cmp <? 0)%Z.
  { destruct (Nat.eqb_spec (p_level it) 0) as [E0|N0].
    - eexists _, _. split; [reflexivity|]. split; [reflexivity|]. right. destruct (sf_len _ _ S). split; [constructor; auto|]. split; [reflexivity|]. left. split; [exact E0|]. unfold klen in K. rewrite E0 in K. cbn [p_setValid p_key]. now destruct (p_key it).
    - destruct (next_safe (p_setLevel it (p_level it - 1))) as (it' & -> & M).
      { unfold inside. cbn [p_setLevel p_level]. replace (Datatypes.S (p_level it - 1)) with (p_level it) by lia. split; [now apply set_level_safe|exact K]. }
      cbn [bind]. eexists _, _. split; [reflexivity|exact M]. }
  destruct (pos_facts _ _ IL0) as (lab & hc0 & b0 & EL0 & _). destruct (Nat.leb (length q) (depth + length pre) || (0 <? cmp)%Z) eqn:C.
  { rewrite EL0. cbn [bind]. destruct (append_in it nd lab pos S K G IL0) as (it1 & -> & LV & I1 & V1 & _ & SD & _). cbn [bind]. destruct (move_inside true it1 I1) as (it' & E & ST & SD'). unfold p_moveLeft. rewrite E. cbn [bind].
    eexists _, _. split; [reflexivity|]. split; [congruence|now left]. }
  apply orb_false_iff in C as [CL _]. apply Nat.leb_gt in CL. destruct (nth_error q (depth + length pre)) as [kb|] eqn:EK; [|apply nth_error_None in EK; lia].
  rewrite (proj2 (idx_Ok _ _ _) EK). cbn [bind]. pose proof G as (l & P & n & Q & LL & AT & ->). destruct (node_rep l P n Q AT ltac:(lia)) as (S2 & R & W & NI & EC & EN).
  assert (EP0 : pos = length (flat_map items (spre (l - h) P))) by (rewrite NI in F0; rewrite (s_firstLabelPos fp c _ _ _ _ _ _ _ R W) in F0; apply Ok_eq in F0; auto).
  assert (Wn : nwf n) by (apply Forall_app in W as [_ W']; now inversion W'). pose proof (items_pos n Wn) as IP.
  assert (SZ : ls_nodeSize ls pos = Ok (length (items n))).
  { rewrite EP0. apply (s_nodeSize fp c _ _ _ _ _ _ _ R W). destruct (at_items_two fp c NSS h s SR l P n Q AT) as [T|[T1 T2]]; [now left|right]. subst P. unfold SurfIterSparse.spre. replace (l - h) with 0 by lia. reflexivity. }
  rewrite SZ. cbn [bind]. assert (LF : (exists A x B, items n = A ++ x :: B /\ noterm x = true /\ i_label x = kb) \/ (forall x, In x (items n) -> noterm x = true -> i_label x <> kb)).
  { destruct (existsb (fun x => noterm x && Nat.eqb (i_label x) kb) (items n)) eqn:EX.
    - left. apply existsb_exists in EX as (x & Ix & EX). apply andb_true_iff in EX as [E1 E2]. apply Nat.eqb_eq in E2. destruct (in_split _ _ Ix) as (A & B & EI). eauto 7.
    - right. intros x Ix NT EL. assert (existsb (fun x => noterm x && Nat.eqb (i_label x) kb) (items n) = true); [|congruence]. apply existsb_exists. exists x. rewrite NT, EL, Nat.eqb_refl. auto. }
  destruct LF as [(A & x & B & EI & NT & EX)|ABS].
  - rewrite EP0, <- EX, (s_search fp c _ _ _ _ _ _ _ R W A x B EI NT). cbn [bind negb].
    assert (IL : inl (p_level it) (length (flat_map items (spre (l - h) P)) + length A)). { unfold inl in *. rewrite EI, app_length in EN. cbn [length] in EN. lia. }
    destruct (append_in it (nid l P) (i_label x) _ S K G IL) as (it1 & -> & LV & I1 & V1 & _ & SD & NP). cbn [bind].
    destruct (pos_facts _ _ IL) as (lab1 & hc & b1 & _ & -> & _ & _ & _ & LA & CH). cbn [bind]. destruct hc; cbn [negb].
    + destruct (CH eq_refl) as (nd' & -> & G'). cbn [bind]. destruct (node_facts _ _ G') as (_ & _ & _ & _ & (p' & F' & _) & _). rewrite F'. cbn [bind].
      destruct (IH (p_setLevel it1 (Datatypes.S (p_level it1))) nd' p' (depth + length pre + 1)) as (it' & b & E & SD' & M); cbn [p_setLevel p_level p_valid]; auto.
      * apply set_level_safe. apply I1.
      * apply I1.
      * congruence.
      * rewrite LV. exact G'.
      * lia.
      * lia.
      * exists it', b. split; [exact E|]. split; [|exact M]. rewrite SD'. cbn [p_setLevel p_startDepth]. exact SD.
    + destruct (LA eq_refl) as [(sp & ESP & _ & CM)]. unfold p_compareSuffix. rewrite ESP. cbn [bind]. destruct (CM q (depth + length pre + 1)) as (cm & ->). cbn [bind]. destruct (cm <? 0)%Z.
      * destruct (next_safe it1 I1) as (it' & -> & SD' & M). cbn [bind]. eexists _, _. split; [reflexivity|]. split; [congruence|exact M].
      * eexists _, _. split; [reflexivity|]. split; [exact SD|]. left. destruct I1 as [[[] ? ? ? ?] ?]. split; [split; auto; constructor; auto; constructor; auto|]. split; [reflexivity|]. cbn [p_setValid p_level p_pos]. rewrite NP. apply LA. reflexivity.
  - destruct (s_search_no fp c _ _ _ _ _ _ _ R W kb ABS) as (p1 & E1). rewrite <- EP0 in E1. rewrite E1. cbn [bind negb].
    assert (R1 : pos <= p1 <= Datatypes.S pos) by (eapply search_false; eauto). unfold p_leftInNext.
    destruct (gt_any kb p1 (length (items n)) ltac:(lia) ltac:(lia)) as (p2 & ok & -> & R2 & OK2). cbn [bind]. destruct (label_ok p2 ltac:(lia)) as (l2 & EL2). unfold getLabel at 1. rewrite EL2. cbn [bind].
    destruct (append_any it (nid l P) l2 p2 S K G) as (it1 & -> & LV & S1 & K1 & V1 & AT1 & SD & NP & PL & MO). cbn [bind]. destruct ok.
    + destruct (move_inside true it1) as (it' & E & ST & SD').
      { split; [|now rewrite LV]. apply safe_S; rewrite ?LV; auto. rewrite NP. unfold inl in *. specialize (OK2 eq_refl). lia. }
      unfold p_moveLeft. rewrite E. cbn [bind]. eexists _, _. split; [reflexivity|]. split; [congruence|now left].
    + destruct (next_after it1) as (it' & -> & SD' & M); rewrite ?LV; auto; rewrite ?NP; unfold inl in *; try lia; [apply S1|].
      cbn [bind]. eexists _, _. split; [reflexivity|]. split; [congruence|exact M].
Qed.

Lemma seek_safe q it nd d : slen it -> p_key it = [] -> p_valid it = false -> gnode 0 nd -> d <= length q ->
  exists it' b, p_seek ls (p_setStart it nd d) q = Ok (it', b) /\ p_startDepth it' = d /\ (stands it' \/ idle it').
Proof.
  intros SL K V G LD. unfold p_seek. cbn [p_setStart p_startNode p_startDepth]. destruct (node_facts _ _ G) as (_ & _ & _ & _ & (p & F & _) & _). rewrite F. cbn [bind].
  destruct (seek_loop_safe q (ls_sparseLevels ls) (p_setLevel (p_setStart it nd d) 0) nd p d) as (it' & b & E & SD & M); auto.
  - constructor; cbn [p_setLevel p_setStart p_level]; try lia. destruct SL. constructor; auto.
  - unfold klen. cbn [p_setLevel p_setStart p_level p_key]. now rewrite K.
  - rewrite sparse_lvls. lia.
  - exists it', b. split; [exact E|]. split; [exact SD|exact M].
Qed.
End Safe.
