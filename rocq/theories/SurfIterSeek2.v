(** * Seek: the sparse part, and the whole. *)
From Verif Require Import Base BitsModel BitsFacts VecModel VecProofs VecProofs2 SurfModel SurfTrie SurfSuffix SurfBuild SurfDense SurfEnc SurfBuildTop SurfGet SurfGet2 SurfSpec SurfWalk SurfTop SurfSuffix3 SurfGetSpec SurfExact SurfIter SurfIterSpec SurfVerdict SurfIterLevel SurfIterPath SurfIterDense SurfIterSparse SurfIterTop SurfIterMain SurfIterSeek.
Ltac Zify.zify_post_hook ::= Z.div_mod_to_equations.

(** *** SearchGreaterThan in a node without a terminator *)
Section Gt.
Variable fp : bytes -> N.
Variable c : config.
Variables (ls : loudsSparse) (height h : nat) (DN S1 S2 : list tnode) (n : tnode).
Hypothesis R : ls_rep fp c ls height h DN (S1 ++ n :: S2).
Hypothesis W : Forall nwf (S1 ++ n :: S2).
Notation P0 := (length (flat_map items S1)).
Hypothesis NT : forall x, In x (items n) -> i_term x = false.

Lemma nt_skip : skip_terminator (ls_label ls) P0 (length (items n)) = Ok (P0, length (items n)).
Proof.
  destruct (s_skip fp c ls height h DN S1 S2 n R W) as (T & ET & SK & HT). assert (T = []).
  { destruct T as [|t T]; auto. exfalso. assert (i_term t = true) by (apply HT; now left). rewrite NT in H; [discriminate|]. rewrite ET. now left. }
  subst T. cbn [app length] in ET, SK. rewrite <- ET in SK. now rewrite Nat.add_0_r in SK.
Qed.
Lemma nt_search_no k : (forall x, In x (items n) -> i_term x = false -> i_label x <> k) ->
  label_search (ls_label ls) k P0 (length (items n)) = Ok (P0, false).
Proof.
  intros HN. unfold label_search. rewrite nt_skip. cbn [bind]. rewrite (s_label_eq fp c ls height h DN S1 S2 n R).
  rewrite <- (map_length i_label (flat_map items S1)), <- (map_length i_label (items n)). cbv zeta. rewrite slice_mid.
  2:{ rewrite !app_length, !map_length. cbn [length]. lia. }
  cbn [bind]. rewrite indexByte_no; [reflexivity|]. intros x Hx. apply HN; auto.
Qed.
Lemma nt_gt k A B : items n = A ++ B -> (forall x, In x A -> i_label x <= k) -> (forall x, In x B -> k < i_label x) ->
  label_search_gt (ls_label ls) k P0 (length (items n)) = Ok (match B with [] => (P0 + length A - 1, false) | _ => (P0 + length A, true) end).
Proof.
  intros EI HA HB. unfold label_search_gt. rewrite nt_skip. cbn [bind].
  destruct (sort_search_spec (fun i => l <- idx (ls_label ls) (P0 + i) ;; Ok (Nat.ltb k l)) (fun i => Nat.leb (length A) i) (length (items n))) with (fuel := length (items n)) (i := 0) (j := length (items n))
    as (r & -> & RL & RA & RB); try lia.
  - intros i Hi. destruct (nth_error (items n) i) as [x|] eqn:E; [|apply nth_error_None in E; lia].
    destruct (nth_error_split _ _ E) as (C & D & EC & LC). pose proof (s_getLabel fp c ls height h DN S1 S2 n R C x D EC) as GL. unfold getLabel in GL. rewrite LC in GL. rewrite GL. cbn [bind]. f_equal.
    rewrite EI in E. destruct (Nat.leb_spec (length A) i) as [L|L].
    + rewrite nth_error_app2 in E by lia. apply nth_error_In in E. apply Nat.ltb_lt. auto.
    + rewrite nth_error_app1 in E by lia. apply nth_error_In in E. apply Nat.ltb_ge. auto.
  - assert (LI : length (items n) = length A + length B) by (rewrite EI, app_length; lia). assert (r = length A) as ->.
    { destruct (Nat.lt_trichotomy r (length A)) as [L|[L|L]]; auto.
      - specialize (RB r). rewrite Nat.leb_le in RB. lia.
      - specialize (RA (length A) L). rewrite Nat.leb_gt in RA. lia. }
    cbn [bind]. destruct B as [|b B]; cbn [length] in LI.
    + destruct (Nat.eqb_spec (length A) (length (items n))); [reflexivity|lia].
    + destruct (Nat.eqb_spec (length A) (length (items n))); [lia|reflexivity].
Qed.
End Gt.

(** *** SearchGreaterThan in a node with a terminator, two labels being greater *)
(** The search is told of one label too many, but never looks at it. *)
Lemma sort_search_over (f : nat -> res bool) a m : a + 2 <= m -> (forall i, i < m -> f i = Ok (Nat.leb a i)) ->
  forall fuel i j, i <= a -> a <= j -> j <= S m -> j - i <= fuel -> sort_search fuel f i j = Ok a.
Proof.
  intros A2 F. induction fuel as [|fuel IH]; intros i j IA AJ JM FU; cbn [sort_search].
  - destruct (Nat.ltb_spec i j); [lia|]. f_equal. lia.
  - destruct (Nat.ltb_spec i j) as [L|L]; [|f_equal; lia]. rewrite F by lia. cbn [bind].
    destruct (Nat.leb_spec a ((i + j) / 2)); apply IH; lia.
Qed.
Section GtTerm.
Variable fp : bytes -> N.
Variable c : config.
Variables (ls : loudsSparse) (height h : nat) (DN S1 S2 : list tnode) (n : tnode).
Hypothesis R : ls_rep fp c ls height h DN (S1 ++ n :: S2).
Hypothesis W : Forall nwf (S1 ++ n :: S2).
Notation P0 := (length (flat_map items S1)).
Variables (t : item) (r : list item).
Hypothesis EN : items n = t :: r.
Hypothesis TT : i_term t = true.

Lemma gt_wf : nwf n.
Proof. rewrite Forall_forall in W. apply W. apply in_or_app. right. now left. Qed.
Lemma t_rest x : In x r -> i_term x = false.
Proof. intros I. pose proof (tail_noterm n t r EN) as F. rewrite Forall_forall in F. now apply F. Qed.
Lemma t_skip : skip_terminator (ls_label ls) P0 (length (items n)) = Ok (P0 + 1, length r).
Proof.
  destruct (s_skip fp c ls height h DN S1 S2 n R W) as (T & ET & SK & HT).
  assert (FR : filter noterm (items n) = r).
  { rewrite EN. cbn [filter]. unfold noterm at 1. rewrite TT. cbn [negb]. apply filter_all. intros x Hx. unfold noterm. now rewrite (t_rest x Hx). }
  rewrite FR in *. assert (length T = 1) as <- by (apply (f_equal (@length item)) in ET; rewrite EN, app_length in ET; cbn [length] in ET; lia). exact SK.
Qed.
Lemma t_search_no k : (forall x, In x (items n) -> i_term x = false -> i_label x <> k) ->
  label_search (ls_label ls) k P0 (length (items n)) = Ok (P0 + 1, false).
Proof.
  intros HN. unfold label_search. rewrite t_skip. cbn [bind]. rewrite (s_label_eq fp c ls height h DN S1 S2 n R). rewrite EN.
  set (L1 := map i_label (flat_map items S1) ++ [i_label t]).
  assert (LL : P0 + 1 = length L1) by (unfold L1; rewrite app_length, map_length; reflexivity). rewrite LL, <- (map_length i_label r).
  match goal with |- context [slice ?l _ _] => assert (EL : exists z, l = L1 ++ map i_label r ++ z) end.
  { unfold L1. cbn [map app]. eexists. rewrite <- !app_assoc. cbn [app]. reflexivity. }
  destruct EL as (z & ->). cbv zeta. rewrite slice_mid.
  2:{ rewrite !app_length. lia. }
  cbn [bind]. rewrite indexByte_no; [reflexivity|]. intros x Hx. apply HN; [rewrite EN; now right|now apply t_rest].
Qed.
Lemma t_gt k A B y z : r = A ++ B -> (forall x, In x A -> i_label x <= k) -> (forall x, In x B -> k < i_label x) ->
  In y B -> In z B -> i_label y < i_label z ->
  label_search_gt (ls_label ls) k (P0 + 1) (length (items n)) = Ok (P0 + 1 + length A, true).
Proof.
  intros ER HA HB Iy Iz YZ. pose proof gt_wf as Wn.
  assert (B2 : 2 <= length B).
  { destruct B as [|b [|b' B']]; cbn [length]; [destruct Iy| |lia]. destruct Iy as [<-|[]], Iz as [<-|[]]. lia. }
  assert (LR : length r = length A + length B) by (rewrite ER, app_length; lia).
  assert (GL : forall i x, nth_error r i = Some x -> idx (ls_label ls) (P0 + 1 + i) = Ok (i_label x)).
  { intros i x E. destruct (nth_error_split _ _ E) as (C & D & EC & LC). pose proof (s_getLabel fp c ls height h DN S1 S2 n R (t :: C) x D) as GL.
    rewrite EN, EC in GL. specialize (GL eq_refl). unfold getLabel in GL. cbn [length] in GL. rewrite LC in GL. now replace (P0 + 1 + i) with (P0 + S i) by lia. }
  unfold label_search_gt, skip_terminator. rewrite EN. cbn [length]. destruct (Nat.ltb_spec 1 (S (length r))); [|lia].
  destruct r as [|x0 r0] eqn:Er; [cbn [length] in LR; lia|]. rewrite <- Er in *.
  replace (P0 + 1) with (P0 + 1 + 0) at 1 by lia. rewrite (GL 0 x0) by (now rewrite Er). cbn [bind].
  assert (X0 : i_label x0 < 255).
  { destruct (items_order n [t] x0 r0 Wn) as (_ & OR); [now rewrite EN, Er|apply t_rest; rewrite Er; now left|].
    assert (LZ : i_label z < 256) by (apply (label_byte n); auto; rewrite EN, ER; right; apply in_or_app; now right).
    assert (JY : In y r) by (rewrite ER; apply in_or_app; now right). rewrite Er in JY. destruct JY as [<-|JY]; [lia|]. destruct (OR y JY). lia. }
  destruct (Nat.eqb_spec (i_label x0) labelTerminator) as [E|_]; [unfold labelTerminator in E; lia|]. cbn [bind].
  rewrite (sort_search_over _ (length A) (length r)); try lia.
  - cbn [bind]. destruct (Nat.eqb_spec (length A) (S (length r))); [lia|reflexivity].
  - intros i Hi. destruct (nth_error r i) as [x|] eqn:E; [|apply nth_error_None in E; lia]. rewrite (GL i x E). cbn [bind]. f_equal.
    rewrite ER in E. destruct (Nat.leb_spec (length A) i) as [L|L].
    + rewrite nth_error_app2 in E by lia. apply nth_error_In in E. apply Nat.ltb_lt. auto.
    + rewrite nth_error_app1 in E by lia. apply nth_error_In in E. apply Nat.ltb_ge. auto.
Qed.
End GtTerm.

Section Seek2.
Variable fp : bytes -> N.
Variable c : config.
Variables (NSS : list (list tnode)) (h : nat) (s : surf) (kvs : list kv).
Hypothesis SR : surf_rep fp c NSS h s.
Hypothesis RT : nth_error NSS 0 = Some [mknode kvs 0].
Hypothesis CO : cfg_ok c.
Hypothesis LO : Forall (leaf_ok c) (leaves (concat NSS)).
Hypothesis INC : increasing (map fst kvs).
Hypothesis NI : Forall (ninv kvs) (concat NSS).
Variable q : bytes.
Hypothesis Wq : wf_bytes q = true.
Hypothesis QT : forall n x, In n (concat (skipn h NSS)) -> In x (items n) -> i_term x = true -> is_prefix (ndpath n) q -> tn_d n < length q ->
  (exists y, In y (items n) /\ i_term y = false /\ i_label y = nth (tn_d n) q 0) \/
  (exists y z, In y (items n) /\ In z (items n) /\ i_term y = false /\ i_term z = false /\ nth (tn_d n) q 0 < i_label y < i_label z).
Notation pok := (pok kvs).
Notation topn := (topn kvs).
Notation nid := (nid NSS).
Notation linked := (dw_linked fp c NSS h s SR).
Notation wf := (dw_wf fp c NSS h s SR).
Notation ls := (s_ls s).
Notation keys := (map fst kvs).
Notation lo := (lo c kvs q).
Notation hi := (hi kvs q).
Notation shi := (shi kvs q).

Section Sub.
Variables (R0 : list frame) (PZ : list tnode) (n0 : tnode).
Hypothesis K0 : pok R0.
Hypothesis T0 : topn R0 PZ n0.
Hypothesis LH : length R0 = h.
Notation base := (tn_pd n0).
Notation lvl G := (length (G ++ R0)).
Notation sp := (sp NSS h).
Notation slen := (slen NSS h).
Notation sslots := (sslots NSS h R0 n0).
Notation SS := (SS NSS h kvs R0 n0).
Notation sstop := (sstop NSS h kvs R0 n0).
Notation sstopL := (sstopL NSS h kvs R0 n0).
Notation sidle := (sidle NSS h).
Notation RNT := (RNT fp c NSS h s kvs SR RT).

Notation landed := (landed c h kvs q).
Inductive sres (p : sparseIter) (b : bool) : Prop :=
| S1 pre : sstopL p pre -> lo (bef R0 ++ pre) -> (forall rest, (bef R0 ++ pre) ++ rest = kvs -> hi rest) -> b = false -> sres p b
| S2 pre e post : sstop p pre e post -> lo (bef R0 ++ pre) -> shi (post ++ aft R0) -> landed b e -> sres p b
| S3 : sidle p -> lo (tn_kvs n0) -> b = false -> sres p b.

Lemma sub_kvs f G : pok (f :: G ++ R0) -> bef (f :: G) ++ i_grp (f_it f) ++ aft (f :: G) = tn_kvs n0.
Proof.
  intros PK. pose proof (bef_aft_it kvs f (G ++ R0) PK) as E.
  pose proof (bef_aft kvs R0 K0 _ _ T0) as E0. change (f :: G ++ R0) with ((f :: G) ++ R0) in E. rewrite bef_app, aft_app in E. rewrite <- E0 in E.
  rewrite <- app_assoc in E. apply app_inv_head in E. rewrite app_assoc, app_assoc in E. apply app_inv_tail in E. rewrite <- app_assoc in E. exact E.
Qed.

Lemma s_next_res it f G : SS it f G -> lo (bef (f :: G ++ R0)) -> lo (i_grp (f_it f)) -> shi (aft (f :: G ++ R0)) ->
  exists p, p_next ls it = Ok p /\ sres p false.
Proof.
  intros S LB LG SA. pose proof (ss_pok _ _ _ _ _ _ _ _ S) as PK. pose proof (bef_aft_it kvs f (G ++ R0) PK) as EK. change (f :: G ++ R0) with ((f :: G) ++ R0) in *.
  rewrite bef_app in LB, EK. rewrite aft_app in SA, EK.
  destruct (s_next_spec fp c NSS h s kvs SR RT R0 PZ n0 T0 LH RNT it f G S) as (p & -> & [(A0 & I)|(A0 & ST)]); exists p; split; auto.
  - apply S3; auto. rewrite <- (sub_kvs f G PK), A0, app_nil_r. apply lo_app in LB as [_ LB]. now apply lo_app.
  - apply (S1 _ _ (bef (f :: G) ++ i_grp (f_it f))); auto. { rewrite app_assoc. now apply lo_app. }
    intros rest E. rewrite app_assoc in E. rewrite (rest_of kvs _ _ _ _ EK E). now apply shi_hi.
Qed.

Lemma sseek_loop todo : forall it G P n, pok (G ++ R0) -> topn (G ++ R0) P n -> length NSS <= todo + lvl G -> slen it -> sslots (p_pos it) (p_node it) (p_plen it) G ->
  p_level it = length G -> p_key it = skipn base (npath n) -> p_atTerm it = false -> p_startDepth it = base ->
  is_prefix (npath n) q -> lo (bef (G ++ R0)) -> shi (aft (G ++ R0)) ->
  exists p b, p_seek_loop todo ls it q (nid (lvl G) P) (sp G P) (tn_pd n) = Ok (p, b) /\ sres p b.
Proof.
  induction todo as [|todo IH]; intros it G P n PK T LT SLn SL LV KE AT SD PR LB SA.
  { exfalso. destruct (sparse_at fp c NSS h s kvs SR RT R0 LH G P n PK T) as (? & ? & _ & _ & _ & _ & _ & _ & L). lia. }
  destruct (sparse_at fp c NSS h s kvs SR RT R0 LH G P n PK T) as (E1 & E2 & EC & NId & ES & R & W & TW & LL).
  pose proof (top_wf NSS kvs linked wf RT _ _ _ PK T) as Wn. destruct (top_ni fp c NSS h s kvs SR RT NI _ _ _ PK T) as [NIn TWn]. pose proof (bef_aft kvs (G ++ R0) PK _ _ T) as EK.
  assert (ESP : sp G P = length (flat_map items E1)) by (unfold SurfIterSparse.sp; now rewrite <- ES).
  assert (PID : ls_prefixID ls (nid (lvl G) P) = Ok (length E1)).
  { unfold ls_prefixID. rewrite (lsr_dn _ _ _ _ _ _ _ R), NId. unfold sub_chk.
    destruct (Nat.leb_spec (length (concat (firstn h NSS))) (length (concat (firstn h NSS)) + length E1)); [|lia]. f_equal. lia. }
  cbn [p_seek_loop]. rewrite PID. cbn [bind].
  rewrite (s_prefix_at fp c _ _ _ _ _ _ _ R). cbn [bind].
  destruct (node_cmp c kvs INC q n NIn TWn PR) as (cmp & -> & C1 & C2 & C3). cbn [bind].
  destruct (Z.ltb_spec cmp 0) as [LTc|GE].
  { (* everything below the node is smaller *)
    specialize (C1 LTc). rewrite LV. destruct G as [|g G]; cbn [length Nat.eqb].
    - eexists _, _. split; [reflexivity|]. destruct (topn_fun kvs _ _ _ _ _ T T0) as [-> ->]. apply S3; auto.
      destruct SLn. constructor; cbn [p_setValid p_valid p_atTerm p_level p_key]; auto. { constructor; auto. }
      rewrite KE. pose proof (npath_length _ Wn) as NL. rewrite <- NL, skipn_all. reflexivity.
    - rewrite Nat.sub_succ, Nat.sub_0_r. cbn [app] in PK, T, LB, SA. destruct (top_npath NSS kvs linked wf RT _ _ _ _ PK T) as [NP PDN].
      destruct (s_frame fp c NSS h s kvs SR RT R0 LH g G PK) as (_ & _ & _ & _ & _ & _ & _ & Wg & _).
      pose proof (base_le fp c NSS h s kvs SR RT R0 PZ n0 T0 LH G _ _ (proj1 PK) (proj1 (proj2 PK))) as BL.
      assert (D : SS (p_setLevel it (length G)) g G).
      { constructor; auto; cbn [p_setLevel p_key].
        - destruct SLn. constructor; auto.
        - rewrite KE, NP, skipn_app. f_equal. pose proof (ndpath_length _ Wg). pose proof (w_pd _ Wg). replace (base - length (ndpath (f_n g))) with 0 by lia. reflexivity. }
      destruct (s_next_res _ g G D) as (p & -> & RES); auto. { destruct T as (_ & EN & _). rewrite EN in C1. exact C1. }
      cbn [bind]. eexists _, _. split; [reflexivity|exact RES]. }
  assert (PD : tn_pd n + length (nprefix n) = tn_d n) by now apply prefix_depth. rewrite PD.
  assert (APP : forall A x B, items n = A ++ x :: B -> exists it2, p_append ls it (i_label x) (sp G P + length A) (nid (lvl G) P) = Ok it2 /\ SS it2 (mkF P n A x B) G /\ p_atTerm it2 = false).
  { intros A x B EI. destruct (s_append_spec fp c NSS h s kvs SR RT R0 PZ n0 T0 LH it G P n (sp G P + length A) (i_label x)) as (ps & ns & pl & EA & L1 & L2 & L3 & Q1 & Q2); auto.
    rewrite EA. eexists. split; [reflexivity|]. split; [|exact AT]. constructor; cbn [p_setKey p_setPos p_level p_pos p_node p_plen p_key f_it f_n p_startDepth]; auto.
    - constructor; auto.
    - cbn [SurfIterSparse.sslots f_P f_n f_A]. split; auto.
    - cbn [app SurfIterPath.pok f_P f_n f_A f_it f_B]. split; auto. }
  assert (HR : forall A B, items n = A ++ B -> hi (concat (map i_grp B)) -> forall rest, (bef R0 ++ bef G ++ concat (map i_grp A)) ++ rest = kvs -> hi rest).
  { intros A B EI HB rest E. assert (EK' : bef (G ++ R0) ++ concat (map i_grp A) ++ (concat (map i_grp B) ++ aft (G ++ R0)) = kvs).
    { rewrite <- EK, <- (items_kvs (tn_d n) (tn_kvs n)). fold (items n). rewrite EI, map_app, concat_app, <- !app_assoc. reflexivity. }
    rewrite app_assoc, <- bef_app in E. rewrite (rest_of kvs _ _ _ _ EK' E). apply hi_app. split; auto. now apply shi_hi. }
  destruct (Nat.leb (length q) (tn_d n) || (0 <? cmp)%Z) eqn:C.
  { (* everything below the node is at least q *)
    assert (HI : hi (tn_kvs n)).
    { destruct (Z.ltb_spec 0 cmp) as [GT|]; [apply shi_hi, C2; auto|]. rewrite orb_false_r in C. apply Nat.leb_le in C. apply short_hi; auto. apply C3. lia. }
    pose proof (items_pos n Wn) as IP. destruct (items n) as [|b B] eqn:EI; [cbn in IP; lia|]. 
    pose proof (s_getLabel fp c _ _ _ _ _ _ _ R [] b B EI) as GL. rewrite <- ESP in GL. cbn [length] in GL. rewrite Nat.add_0_r in GL. rewrite GL. cbn [bind].
    destruct (APP [] b B eq_refl) as (it2 & EA & S & AT2). cbn [length] in EA. rewrite Nat.add_0_r in EA. rewrite EA. cbn [bind].
    destruct (move_at fp c NSS h s kvs SR RT R0 PZ n0 T0 LH RNT true it2 _ _ S AT2) as (p & EM & ST). unfold p_moveLeft. rewrite EM. cbn [bind].
    eexists _, _. split; [reflexivity|]. cbn [bef f_A] in ST. apply (S1 _ _ (bef G ++ concat (map i_grp []))); auto.
    - cbn [map concat]. rewrite app_nil_r, <- bef_app. exact LB.
    - apply (HR [] (b :: B) eq_refl). rewrite <- EI. unfold items. now rewrite (items_kvs (tn_d n) (tn_kvs n)). }
  apply orb_false_iff in C as [CL CZ]. apply Nat.leb_gt in CL. apply Z.ltb_ge in CZ. assert (PN : is_prefix (ndpath n) q) by (apply C3; lia).
  set (k := nth (tn_d n) q 0). assert (HK : nth_error q (tn_d n) = Some k) by (now apply nth_error_nth').
  rewrite (proj2 (idx_Ok _ _ _) HK). cbn [bind]. assert (LK : k < 256) by (apply key_byte; exact Wq).
  assert (NS : ls_nodeSize ls (sp G P) = Ok (length (items n))) by (rewrite ESP; apply (s_nodeSize fp c _ _ _ _ _ _ _ R W TW)).
  rewrite NS. cbn [bind].
  destruct (label_find q n CL) as [(A & x & B & EI & Tx & Lx)|ABS].
  - assert (Ix : In x (items n)) by (rewrite EI; apply in_or_app; right; now left). fold k in Lx.
    assert (SE : label_search (ls_label ls) k (sp G P) (length (items n)) = Ok (sp G P + length A, true)).
    { rewrite ESP, <- Lx. apply (s_search fp c _ _ _ _ _ _ _ R W A x B EI). unfold noterm. now rewrite Tx. }
    rewrite SE. cbn [bind negb].
    destruct (present_split c kvs INC q Wq n NIn TWn A x B PN CL EI Tx Lx) as [PA PB]. set (f := mkF P n A x B).
    destruct (APP A x B EI) as (it2 & EA & S & AT2). rewrite Lx in EA. rewrite EA. cbn [bind]. fold f in S.
    assert (SH : rv_isSet (ls_hasChild ls) (sp G P + length A) = Ok (hasc x)) by (rewrite ESP; apply (s_hasc fp c _ _ _ _ _ _ _ R A x B EI)).
    rewrite SH. cbn [bind].
    assert (LBF : lo (bef (f :: G ++ R0))) by (cbn [bef f f_A]; apply lo_app; auto).
    assert (SAF : shi (aft (f :: G ++ R0))) by (cbn [aft f f_B]; apply shi_app; auto).
    assert (PF : is_prefix (ndpath n ++ [i_label x]) q).
    { rewrite Lx. pose proof PN as PN'. apply is_prefix_firstn_iff in PN'. rewrite (ndpath_length n Wn) in PN'. rewrite <- PN'. now apply firstn_nth_prefix. }
    destruct (hasc x) eqn:HC; cbn [negb].
    + (* down *)
      pose proof (ss_pok _ _ _ _ _ _ _ _ S) as PKF. assert (TC : topn ((f :: G) ++ R0) (kids f) (mkchild x)) by (repeat split; auto).
      destruct (sparse_at fp c NSS h s kvs SR RT R0 LH (f :: G) _ _ PKF TC) as (Z1 & Z2 & EC' & NI' & EZ & RZ & WZ & TWZ & LTZ).
      rewrite ESP, (s_childID fp c _ _ _ _ _ _ _ R A x B EI HC). cbn [bind].
      assert (CID : 1 + length (filter hasc (flat_map items (concat (firstn h NSS) ++ E1) ++ A)) = nid (lvl (f :: G)) (kids f)).
      { cbn [app length]. rewrite (top_nid NSS kvs linked RT (G ++ R0) f (kids f) (mkchild x) PKF TC).
        destruct (top_at NSS kvs linked RT (G ++ R0) PK _ _ T) as (Q & AT').
        destruct (at_sparse NSS h (lvl G) P n Q AT') as [_ AF]. { rewrite app_length. lia. }
        replace (lvl G - h) with (length G) in AF by (rewrite app_length; lia). change (f_P f) with P. change (f_A f) with A. rewrite AF, ES. unfold spre. now rewrite app_assoc. }
      assert (FL : ls_firstLabelPos ls (nid (lvl (f :: G)) (kids f)) = Ok (length (flat_map items Z1))) by (rewrite NI'; apply (s_firstLabelPos fp c _ _ _ _ _ _ _ RZ WZ)).
      rewrite CID, FL. cbn [bind].
      replace (length (flat_map items Z1)) with (sp (f :: G) (kids f)) by (unfold SurfIterSparse.sp; now rewrite <- EZ).
      destruct (top_npath NSS kvs linked wf RT _ _ _ _ PKF TC) as [NP PDC]. change (f_n f) with n in NP, PDC. change (flab f) with (i_label x) in NP.
      rewrite <- PDC. apply (IH _ (f :: G) (kids f) (mkchild x)); auto.
      * cbn [app length]. lia.
      * destruct (ss_len _ _ _ _ _ _ _ _ S). constructor; auto.
      * apply (ss_slots _ _ _ _ _ _ _ _ S).
      * cbn [p_setLevel p_level length]. now rewrite (ss_level _ _ _ _ _ _ _ _ S).
      * cbn [p_setLevel p_key]. rewrite (ss_key _ _ _ _ _ _ _ _ S), NP, skipn_app. change (f_n f) with n. change (flab f) with (i_label x). f_equal.
        pose proof (base_le fp c NSS h s kvs SR RT R0 PZ n0 T0 LH G _ _ PK T) as BL. pose proof (ndpath_length _ Wn). pose proof (w_pd _ Wn). replace (base - length (ndpath n)) with 0 by lia. reflexivity.
      * apply (ss_start _ _ _ _ _ _ _ _ S).
      * rewrite NP. exact PF.
    + (* leaf *)
      destruct (item_leaf n x Ix HC) as (e & GE2). unfold p_compareSuffix. rewrite ESP, (s_suffixPos fp c _ _ _ _ _ _ _ R A x B EI HC). cbn [bind].
      assert (LJ : nth_error (leaves (E1 ++ n :: E2)) (length (filter leafb (flat_map items E1 ++ A))) = Some x) by now apply (leaves_split E1 E2 n A x B).
      assert (LKO : leaf_ok c x).
      { pose proof (lo_sparse c NSS h LO) as LD'. rewrite EC in LD'. rewrite Forall_forall in LD'. apply LD'. eapply nth_error_In; eauto. }
      destruct (leaf_cmp fp c NSS h s kvs SR RT CO INC NI q Wq (ls_suffixes ls) (leaves (E1 ++ n :: E2)) _ n x e _ _ PK T (lsr_suf _ _ _ _ _ _ _ R) LJ LKO Ix Tx GE2 PN CL Lx) as (NR & ->). cbn [bind].
      assert (VC : (zcmp (verdict (c_realLen c) (length (dprefix keys (fst e))) (fst e) q) <? 0)%Z = match verdict (c_realLen c) (length (dprefix keys (fst e))) (fst e) q with Lt => true | _ => false end) by (destruct (verdict _ _ _ _); reflexivity).
      rewrite VC. clear VC. destruct (verdict (c_realLen c) (length (dprefix keys (fst e))) (fst e) q) eqn:VD.
      2:{ destruct (s_next_res it2 f G S LBF) as (p & -> & RES); auto. { intros e' He'. change (i_grp (f_it f)) with (i_grp x) in He'. rewrite GE2 in He'. destruct He' as [<-|[]]. left. auto. }
        cbn [bind]. eexists _, _. split; [reflexivity|exact RES]. }
      all: eexists _, _; (split; [reflexivity|]); apply (S2 _ _ (bef (f :: G)) e (aft (f :: G)));
        [apply sstop_i; auto; [|cbn [p_setValid p_atTerm f f_it]; congruence]; destruct S as [? [] ? ? ? ?]; constructor; auto; constructor; auto
        |rewrite <- bef_app; exact LBF|rewrite <- aft_app; exact SAF|left; split; [exact NR|rewrite VD; reflexivity]].
  - (* no such label *)
    assert (NTn : (forall x, In x (items n) -> i_term x = false) \/ exists t r, items n = t :: r /\ i_term t = true).
    { destruct (items n) as [|t r] eqn:EN; [left; intros x []|]. destruct (i_term t) eqn:Tt; [right; now exists t, r|]. left. intros x [<-|Ix]; auto.
      pose proof (tail_noterm n t r EN) as F. rewrite Forall_forall in F. now apply F. }
    destruct NTn as [NTn|(t & rr & EN & Tt)].
    2:{ (* behind a terminator *)
      assert (It : In t (items n)) by (rewrite EN; now left).
      destruct (QT n t) as [(y & Iy & Ty & Ly)|(y & z & Iy & Iz & Ty & Tz & KY)]; auto; [rewrite EC; apply in_or_app; right; now left|exfalso; exact (ABS y Iy Ty Ly)|]. fold k in KY.
      rewrite ESP. rewrite (t_search_no fp c _ _ _ _ _ _ _ R W t rr EN Tt k ABS). cbn [bind negb].
      destruct (absent_split c kvs INC q Wq n NIn TWn PN CL ABS) as (A & B & EI & HA & HB & LA & SB). fold k in HA, HB.
      destruct A as [|t' A]. { exfalso. cbn [app] in EI. rewrite EN in EI. destruct (HB t); [rewrite <- EI; now left|congruence]. }
      assert (t' = t) by (rewrite EN in EI; now injection EI). subst t'. assert (ER : rr = A ++ B) by (rewrite EN in EI; now injection EI).
      assert (TR : forall x, In x rr -> i_term x = false) by (intros x Hx; pose proof (tail_noterm n t rr EN) as F; rewrite Forall_forall in F; now apply F).
      assert (HA' : forall x, In x A -> i_label x <= k) by (intros x Hx; apply HA; [now right|apply TR; rewrite ER; apply in_or_app; now left]).
      assert (UP : forall x, In x (items n) -> i_term x = false -> k < i_label x -> In x B).
      { intros x Ix Tx LX. rewrite EI in Ix. apply in_app_or in Ix as [[<-|Ix]|Ix]; auto; [congruence|]. specialize (HA' x Ix). lia. }
      unfold p_leftInNext. rewrite (t_gt fp c _ _ _ _ _ _ _ R W t rr EN k A B y z ER HA'); [|intros x Hx; apply (HB x Hx)|apply UP; auto; lia|apply UP; auto; lia|lia].
      destruct B as [|b B]; [exfalso; apply (UP y Iy Ty); lia|].
      cbn [bind]. replace (length (flat_map items E1) + 1 + length A) with (length (flat_map items E1) + length (t :: A)) by (cbn [length]; lia).
      rewrite (s_getLabel fp c _ _ _ _ _ _ _ R (t :: A) b B EI). cbn [bind]. rewrite <- ESP. destruct (APP (t :: A) b B EI) as (it2 & -> & S & AT2). cbn [bind].
      destruct (move_at fp c NSS h s kvs SR RT R0 PZ n0 T0 LH RNT true it2 _ _ S AT2) as (p & EM & ST). unfold p_moveLeft. rewrite EM. cbn [bind].
      eexists _, _. split; [reflexivity|]. cbn [bef f_A] in ST. apply (S1 _ _ (bef G ++ concat (map i_grp (t :: A)))); auto.
      * rewrite app_assoc, <- bef_app. now apply lo_app.
      * apply (HR (t :: A) (b :: B) EI). now apply shi_hi. }
    rewrite ESP. rewrite (nt_search_no fp c _ _ _ _ _ _ _ R W NTn k ABS). cbn [bind negb].
    destruct (absent_split c kvs INC q Wq n NIn TWn PN CL ABS) as (A & B & EI & HA & HB & LA & SB). fold k in HA, HB.
    unfold p_leftInNext. rewrite (nt_gt fp c _ _ _ _ _ _ _ R W NTn k A B EI); [|intros x Hx; apply HA; auto; apply NTn; rewrite EI; apply in_or_app; auto|intros x Hx; apply (HB x Hx)].
    destruct B as [|b B].
    + rewrite app_nil_r in EI. destruct (last_split A) as [->|(A' & a & ->)].
      { exfalso. pose proof (items_pos n Wn) as IP. rewrite EI in IP. cbn in IP. lia. }
      cbn [bind]. replace (length (flat_map items E1) + length (A' ++ [a]) - 1) with (length (flat_map items E1) + length A') by (rewrite app_length; cbn [length]; lia).
      rewrite (s_getLabel fp c _ _ _ _ _ _ _ R A' a [] EI). cbn [bind]. rewrite <- ESP. destruct (APP A' a [] EI) as (it2 & -> & S & AT2). cbn [bind].
      rewrite map_app, concat_app in LA. apply lo_app in LA as [LA1 LA2]. cbn [map concat] in LA2. rewrite app_nil_r in LA2.
      destruct (s_next_res it2 _ G S) as (p & -> & RES); auto.
      * cbn [bef f_A]. now apply lo_app.
      * cbn [bind]. eexists _, _. split; [reflexivity|exact RES].
    + cbn [bind]. rewrite (s_getLabel fp c _ _ _ _ _ _ _ R A b B EI). cbn [bind]. rewrite <- ESP. destruct (APP A b B EI) as (it2 & -> & S & AT2). cbn [bind].
      destruct (move_at fp c NSS h s kvs SR RT R0 PZ n0 T0 LH RNT true it2 _ _ S AT2) as (p & EM & ST). unfold p_moveLeft. rewrite EM. cbn [bind].
      eexists _, _. split; [reflexivity|]. cbn [bef f_A] in ST. apply (S1 _ _ (bef G ++ concat (map i_grp A))); auto.
      * rewrite app_assoc, <- bef_app. now apply lo_app.
      * apply (HR A (b :: B) EI). now apply shi_hi.
Qed.
End Sub.

(** *** The whole Seek *)
Notation AtN := (At NSS h kvs (fidle NSS h)).
Notation landed := (landed c h kvs q).

Lemma inc_after pre e post : pre ++ e :: post = kvs -> forall x, In x post -> blt (fst e) (fst x).
Proof.
  intros E x Hx. rewrite <- E, map_app in INC. apply increasing_app in INC as (_ & I2 & _). cbn [map] in I2. apply increasing_cons in I2 as [_ I2].
  rewrite Forall_forall in I2. apply I2. now apply in_map.
Qed.

Definition seeked (it : iter) (b : bool) : Prop :=
  (exists pre e post, AtN it pre e post /\ lo pre /\ shi post /\ landed b e) \/ (dead NSS h kvs it /\ lo kvs /\ b = false).

Lemma seeked_hi it b pre e post : AtN it pre e post -> lo pre -> (forall rest, pre ++ rest = kvs -> hi rest) -> ends h kvs q b pre -> seeked it b.
Proof.
  intros A L H EN. left. exists pre, e, post. split; auto. split; auto. pose proof (at_kvs _ _ _ _ _ _ _ _ A) as EK. specialize (H _ EK).
  assert (HE : ~ near keys (fst e) q /\ ble q (fst e)) by (apply H; now left). destruct HE as [NE HE].
  split; [|right; split; [exact NE|split; [exact HE|split; [intros EB; exact (proj1 EN EB _ _ EK)|exact (proj2 EN)]]]]. intros x Hx. split; [apply H; now right|]. eapply ble_blt_trans; [exact HE|]. eapply inc_after; eauto.
Qed.

Theorem seek_spec it0 : iter_for s it0 -> exists it b, it_seek s it0 q = Ok (it, b) /\ seeked it b.
Proof.
  intros F. unfold it_seek. assert (HN : ls_height (s_ls s) <> 0).
  { rewrite (lsr_height _ _ _ _ _ _ _ (sr_ls fp c NSS h s SR)). destruct NSS; [discriminate|cbn; lia]. }
  apply Nat.eqb_neq in HN. rewrite HN. cbn [andb]. pose proof (reset_idle fp c NSS h s SR it0 F) as SI. pose proof (reset_dlen fp c NSS h s SR it0 F) as DL.
  set (rs := it_reset it0) in *. unfold d_seek. assert (EH : ld_height (s_ld s) = h) by apply (ldr_h _ _ _ _ _ (sr_ld fp c NSS h s SR)). rewrite EH.
  assert (TR : topn [] [] (mknode kvs 0)) by (split; reflexivity). destruct (root_npath kvs _ _ TR) as [NP0 PD0].
  assert (N0 : nid 0 [] = 0) by reflexivity. 
  destruct (dseek_loop fp c NSS h s kvs SR RT CO LO INC NI q Wq h (d_setLevel (i_dense rs) 0) [] [] (mknode kvs 0)) as (d & b & E & RES); auto; try reflexivity.
  { rewrite NP0. now exists q. } { intros e []. } { intros e []. }
  cbn [length] in E. rewrite N0, PD0 in E. rewrite E. cbn [bind]. clear E.
  destruct RES as [pre ST L H EN|pre e post DC L SP LA|V DV L EB|R0 PZ n0 K0 T0 LH DB DSe SN SD PR LB SA].
  - assert (FL : d_valid d = true /\ d_search d = true /\ d_isComplete d = d_left d).
    { destruct ST as (mid & post & ST). destruct ST as [f r e D HC G AP (V & S & LL & RR)|f r t e D EA Tt G AP (V & S & LL & RR)|f r D Lr HC AP (V & S & LL & RR) SN SD];
      unfold d_isComplete; rewrite S, LL, RR; auto. }
    destruct FL as (V & S & IC). rewrite V, IC, S. cbn [negb orb].
    destruct (after_left fp c NSS h s kvs SR RT d (i_sparse rs) pre ST SI) as (it & E & e & post & A). rewrite V in E. cbn [negb] in E.
    destruct (d_left d).
    + apply Ok_eq in E. rewrite E. eexists _, _. split; [reflexivity|]. eapply seeked_hi; eauto.
    + cbn [negb]. rewrite E. cbn [bind]. eexists _, _. split; [reflexivity|]. eapply seeked_hi; eauto.
  - destruct (dcomp_flags _ _ _ _ _ _ _ DC) as (V & IC & _ & _). rewrite V, IC. cbn [negb orb]. eexists _, _. split; [reflexivity|].
    left. exists pre, e, post. split; auto. apply at_d; auto; apply SI.
  - rewrite V. cbn [negb orb]. eexists _, _. split; [reflexivity|]. right. split; auto. constructor; cbn [i_dense i_sparse]; auto; apply SI.
  - destruct (dbase_valid _ _ _ _ _ DB) as [V IC]. rewrite V, IC, DSe. cbn [negb orb]. unfold passToSparse. cbn [i_sparse i_dense]. rewrite SN, SD.
    assert (NS : stub h kvs q = false).
    { destruct (stub h kvs q) eqn:ST; auto. exfalso. apply (stub_keys h kvs q Wq) in ST as [LV _]. destruct (top_at NSS kvs linked RT _ K0 _ _ T0) as (Q & AT0). unfold at_node in AT0.
      pose proof (levels_prefix keys _ _ PR) as LP. rewrite (npath_level NSS kvs linked RT NI _ _ n0 AT0) in LP by (apply in_or_app; right; now left). lia. }
    unfold p_seek. cbn [p_setStart p_startNode p_startDepth].
    destruct (sparse_at fp c NSS h s kvs SR RT R0 LH [] PZ n0 K0 T0) as (Z1 & Z2 & EC' & NI' & EZ & RZ & WZ & TWZ & LTZ). cbn [app] in NI', LTZ. rewrite LH in NI', LTZ.
    rewrite NI', (s_firstLabelPos fp c _ _ _ _ _ _ _ RZ WZ). cbn [bind]. rewrite <- NI'.
    replace (length (flat_map items Z1)) with (sp NSS h [] PZ) by (unfold sp; cbn [length] in EZ |- *; now rewrite <- EZ).
    pose proof (top_wf NSS kvs linked wf RT _ _ _ K0 T0) as Wn.
    destruct (sseek_loop R0 PZ n0 K0 T0 LH (ls_sparseLevels (s_ls s)) (p_setLevel (p_setStart (i_sparse rs) (nid h PZ) (tn_pd n0)) 0) [] PZ n0) as (p & b' & E & RES); auto.
    { cbn [app]. unfold ls_sparseLevels. rewrite (lsr_height _ _ _ _ _ _ _ RZ), (lsr_start _ _ _ _ _ _ _ RZ). lia. }
    { destruct (si_len _ _ _ SI). constructor; auto. } { exact Logic.I. }
    { cbn [p_setLevel p_setStart p_key]. rewrite (si_key _ _ _ SI). pose proof (npath_length _ Wn) as NL. rewrite <- NL, skipn_all. reflexivity. }
    cbn [app] in E. rewrite LH in E. unfold p_setLevel, p_setStart in E |- *. cbn [p_valid p_atTerm p_startNode p_startDepth p_level p_key p_pos p_node p_plen] in E |- *.
    rewrite E. cbn [bind]. clear E. destruct RES as [pre ST L H EB|pre e post ST L SP LA|I L EB].
    + destruct ST as (e & post & ST). assert (PV : p_valid p = true) by (destruct ST; auto). rewrite PV. cbn [negb bind]. eexists _, _. split; [reflexivity|].
      subst b'. eapply seeked_hi; [|exact L|exact H|split; [discriminate|auto]]. apply (at_s NSS h kvs (fidle NSS h) (mkIter d p) R0 PZ n0 pre e post); auto.
    + assert (PV : p_valid p = true) by (destruct ST; auto). rewrite PV. cbn [negb bind]. eexists _, _. split; [reflexivity|].
      left. exists (bef R0 ++ pre), e, (post ++ aft R0). split; auto. apply (at_s NSS h kvs (fidle NSS h) (mkIter d p) R0 PZ n0 pre e post); auto.
    + rewrite (si_valid _ _ _ I). cbn [negb]. subst b'. pose proof (bef_aft kvs R0 K0 _ _ T0) as EK.
      destruct (incr_spec fp c NSS h s kvs SR RT d p R0 PZ n0 K0 T0 LH DB I) as (it & -> & [(A0 & IV)|(A0 & e & post & A)]); cbn [bind]; eexists _, _; (split; [reflexivity|]).
      * right. split; auto. split; auto. assert (LL : lo (bef R0 ++ tn_kvs n0 ++ aft R0)) by (rewrite A0, app_nil_r; now apply lo_app). rewrite EK in LL. exact LL.
      * eapply seeked_hi; [exact A|now apply lo_app| |split; [discriminate|auto]]. intros rest ER. rewrite (rest_of kvs _ _ _ _ EK ER). now apply shi_hi.
Qed.
End Seek2.
