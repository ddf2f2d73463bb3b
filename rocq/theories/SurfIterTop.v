(** * Iteration over a built filter. *)
From Coq Require Import Sorted.
From Verif Require Import Base BitsModel BitsFacts VecModel VecProofs VecProofs2 SurfModel SurfTrie SurfSuffix SurfBuild SurfDense SurfEnc SurfBuildTop SurfGet SurfGet2 SurfSpec SurfWalk SurfTop SurfIter SurfIterSpec SurfIterPath SurfIterDense SurfIterSparse.
Ltac Zify.zify_post_hook ::= Z.div_mod_to_equations.

(** Two paths of the same length: the same node, or one before the other. *)
Definition before (r1 r2 : list frame) (P1 P2 : list tnode) (n1 : tnode) : Prop :=
  (exists M, P2 = P1 ++ n1 :: M) /\ (exists M, bef r2 = bef r1 ++ tn_kvs n1 ++ M).

Lemma split3 {A} (l1 : list A) : forall a l2 m1 b m2, l1 ++ a :: l2 = m1 ++ b :: m2 ->
  (l1 = m1 /\ a = b /\ l2 = m2) \/ (exists M, m1 = l1 ++ a :: M) \/ (exists M, l1 = m1 ++ b :: M).
Proof.
  induction l1 as [|x l1 IH]; intros a l2 m1 b m2 E.
  - destruct m1 as [|y m1]; cbn in E; inversion E; subst; [left; auto|right; left; now exists m1].
  - destruct m1 as [|y m1]; cbn in E; inversion E; subst; [right; right; now exists l1|].
    destruct (IH _ _ _ _ _ H1) as [(-> & -> & ->)|[(M & ->)|(M & ->)]]; [left; auto|right; left; now exists M|right; right; now exists M].
Qed.

Lemma node_grps n A x B : items n = A ++ x :: B -> tn_kvs n = concat (map i_grp A) ++ i_grp x ++ concat (map i_grp B).
Proof.
  intros EI. pose proof (items_kvs (tn_d n) (tn_kvs n)) as K. fold (items n) in K. rewrite EI, map_app, concat_app in K. cbn [map concat] in K. now rewrite K.
Qed.

Lemma child_before kvs f1 r1 f2 r2 : pok kvs (f1 :: r1) -> pok kvs (f2 :: r2) -> hasc (f_it f1) = true ->
  before r1 r2 (f_P f1) (f_P f2) (f_n f1) -> before (f1 :: r1) (f2 :: r2) (kids f1) (kids f2) (mkchild (f_it f1)).
Proof.
  intros (_ & _ & E1) _ H1 [(M & EP) (M' & EB)]. split.
  - exists (map mkchild (filter hasc (f_B f1 ++ flat_map items M ++ f_A f2))). unfold kids. rewrite EP, flat_map_app. cbn [flat_map]. rewrite E1.
    rewrite <- !app_assoc. cbn [app]. rewrite (app_assoc (flat_map items (f_P f1))). rewrite !filter_app, !map_app. cbn [filter]. rewrite H1. cbn [map].
    rewrite !filter_app, !map_app. rewrite <- !app_assoc. reflexivity.
  - exists (concat (map i_grp (f_B f1)) ++ M' ++ concat (map i_grp (f_A f2))). cbn [bef]. rewrite EB, (node_grps _ _ _ _ E1).
    change (tn_kvs (mkchild (f_it f1))) with (i_grp (f_it f1)). rewrite <- !app_assoc. reflexivity.
Qed.

Lemma same_before f1 f2 r1 r2 : f_P f1 = f_P f2 -> f_n f1 = f_n f2 -> bef r1 = bef r2 -> hasc (f_it f1) = true ->
  (exists M, f_A f2 = f_A f1 ++ f_it f1 :: M) -> before (f1 :: r1) (f2 :: r2) (kids f1) (kids f2) (mkchild (f_it f1)).
Proof.
  intros EP EN EB H1 (M & EA). split.
  - exists (map mkchild (filter hasc M)). unfold kids. rewrite EA, <- EP, app_assoc, filter_app, map_app. cbn [filter]. rewrite H1. reflexivity.
  - exists (concat (map i_grp M)). cbn [bef]. rewrite EA, map_app, concat_app, EB. cbn [map concat]. change (tn_kvs (mkchild (f_it f1))) with (i_grp (f_it f1)). rewrite <- !app_assoc. reflexivity.
Qed.

Lemma paths_order kvs : forall r1 r2, length r1 = length r2 -> pok kvs r1 -> pok kvs r2 -> forall P1 n1 P2 n2, topn kvs r1 P1 n1 -> topn kvs r2 P2 n2 ->
  (P1 = P2 /\ n1 = n2 /\ bef r1 = bef r2) \/ before r1 r2 P1 P2 n1 \/ before r2 r1 P2 P1 n2.
Proof.
  induction r1 as [|f1 r1 IH]; intros [|f2 r2] L K1 K2 P1 n1 P2 n2 T1 T2; try discriminate.
  - destruct T1 as [-> ->], T2 as [-> ->]. left. auto.
  - cbn [length] in L. pose proof K1 as (K1' & T1' & E1). pose proof K2 as (K2' & T2' & E2). destruct T1 as (H1 & -> & ->), T2 as (H2 & -> & ->).
    destruct (IH r2 ltac:(lia) K1' K2' _ _ _ _ T1' T2') as [(EP & EN & EB)|[BF|BF]].
    + rewrite EN in E1. rewrite E1 in E2. destruct (split3 _ _ _ _ _ _ E2) as [(EA & EI & EB2)|[(M & EA)|(M & EA)]].
      * left. unfold kids. cbn [bef]. rewrite EP, EA, EI, EB. auto.
      * right. left. apply same_before; eauto.
      * right. right. apply same_before; eauto.
    + right. left. eapply child_before; eauto.
    + right. right. eapply child_before; eauto.
Qed.

Section Top.
Variable fp : bytes -> N.
Variable c : config.
Variables (NSS : list (list tnode)) (h : nat) (s : surf) (kvs : list kv).
Hypothesis SR : surf_rep fp c NSS h s.
Hypothesis RT : nth_error NSS 0 = Some [mknode kvs 0].
Hypothesis LO : Forall (leaf_ok c) (leaves (concat NSS)).
Hypothesis INC : increasing (map fst kvs).
Hypothesis NI : Forall (ninv kvs) (concat NSS).
Notation pok := (pok kvs).
Notation topn := (topn kvs).
Notation nid := (nid NSS).
Notation DS := (DS NSS h kvs).
Notation dstop := (dstop NSS h kvs).
Notation SS := (SS NSS h kvs).
Notation slen := (slen NSS h).
Notation sidle := (sidle NSS h).
Notation linked := (dw_linked fp c NSS h s SR).
Notation wf := (dw_wf fp c NSS h s SR).

Lemma root_wf0 : nwf (mknode kvs 0).
Proof. apply (top_wf NSS kvs linked wf RT [] [] (mknode kvs 0) Logic.I (conj eq_refl eq_refl)). Qed.
Lemma RNT : root_nt kvs.
Proof.
  intros x E. destruct (i_term x) eqn:T; auto. exfalso. destruct (item_term (mknode kvs 0) x root_wf0 ltac:(rewrite E; now left) T) as (e & r & EK & _ & _ & NE & _).
  pose proof (items_two _ root_wf0) as TW. rewrite E, EK in TW. destruct r; [congruence|]. cbn [length] in TW. lia.
Qed.

(** The dense part of an iterator that is inside the sparse subtree below [R0]. *)
Definition dbase (d : denseIter) (R0 : list frame) : Prop :=
  match R0 with
  | [] => h = 0 /\ d_valid d = true /\ d_search d = false /\ d_left d = true /\ d_right d = true /\ d_atPrefix d = false /\ d_key d = [] /\ dlen h d
  | f :: r => DS d f r /\ d_atPrefix d = false /\ d_valid d = true /\ d_isComplete d = false
  end.
Lemma dbase_valid d R0 : dbase d R0 -> d_valid d = true /\ d_isComplete d = false.
Proof. destruct R0 as [|f r]; cbn [dbase]; [|tauto]. intros (_ & V & S & _). split; auto. unfold d_isComplete. now rewrite S. Qed.

(** A dense stop on a key. *)
Inductive dcomp (d : denseIter) : list kv -> kv -> list kv -> Prop :=
| dcomp_leaf f r e : DS d f r -> hasc (f_it f) = false -> i_grp (f_it f) = [e] -> d_atPrefix d = false ->
    dflags d true true true -> dcomp d (bef (f :: r)) e (aft (f :: r))
| dcomp_term f r t e : DS d f r -> f_A f = [t] -> i_term t = true -> i_grp t = [e] -> d_atPrefix d = true ->
    dflags d true true true -> dcomp d (bef r) e (i_grp (f_it f) ++ aft (f :: r)).

Lemma dcomp_flags d pre e post : dcomp d pre e post -> d_valid d = true /\ d_isComplete d = true /\ d_left d = true /\ d_right d = true.
Proof. intros [f r e' _ _ _ _ (V & S & L & R)|f r t e' _ _ _ _ _ (V & S & L & R)]; unfold d_isComplete; rewrite S, L, R; auto. Qed.

(** The iterator stands on a key; [idle] says what is known of an unused sparse part. *)
Inductive At (idle : sparseIter -> list kv -> Prop) (it : iter) : list kv -> kv -> list kv -> Prop :=
| at_d pre e post : dcomp (i_dense it) pre e post -> idle (i_sparse it) pre -> p_valid (i_sparse it) = false -> At idle it pre e post
| at_s R0 PZ n0 pre e post : pok R0 -> topn R0 PZ n0 -> length R0 = h -> dbase (i_dense it) R0 ->
    sstop NSS h kvs R0 n0 (i_sparse it) pre e post -> At idle it (bef R0 ++ pre) e (post ++ aft R0).

(** The iterator ran off the stored keys (or was never placed). *)
Record dead (it : iter) : Prop := {
  de_slen : slen (i_sparse it); de_dlen : dlen h (i_dense it); de_sp : p_valid (i_sparse it) = false;
  de_d : d_valid (i_dense it) = false \/ dbase (i_dense it) [] }.
Lemma dead_invalid it : dead it -> it_valid it = false.
Proof.
  intros [_ _ SP D]. unfold it_valid. rewrite SP, orb_false_r. destruct D as [->|D]; [reflexivity|]. destruct (dbase_valid _ _ D) as [_ ->]. apply andb_false_r.
Qed.
Lemma dead_next it : dead it -> it_next s it = Ok it.
Proof.
  intros [_ _ SP D]. unfold it_next. rewrite SP. unfold incrDense. destruct D as [->|D]; [reflexivity|]. cbn [dbase] in D. destruct D as (H0 & V & _ & LL & _). rewrite V. cbn [negb].
  assert (EH : ld_height (s_ld s) = 0) by (rewrite (ldr_h _ _ _ _ _ (sr_ld fp c NSS h s SR)); exact H0). unfold d_next. rewrite EH. cbn [Nat.eqb bind]. rewrite V, LL. cbn [negb]. now destruct it.
Qed.
Lemma dead_prev it : dead it -> it_prev s it = Ok it.
Proof.
  intros [_ _ SP D]. unfold it_prev. rewrite SP. unfold decrDense. destruct D as [->|D]; [reflexivity|]. cbn [dbase] in D. destruct D as (H0 & V & _ & _ & RR & _). rewrite V. cbn [negb].
  assert (EH : ld_height (s_ld s) = 0) by (rewrite (ldr_h _ _ _ _ _ (sr_ld fp c NSS h s SR)); exact H0). unfold d_prev. rewrite EH. cbn [Nat.eqb bind]. rewrite V, RR. cbn [negb]. now destruct it.
Qed.

Lemma at_kvs idle it pre e post : At idle it pre e post -> pre ++ e :: post = kvs.
Proof.
  intros [p e' q D _ _|R0 PZ n0 p e' q K0 T0 LH DB S].
  - destruct D as [f r e' D HC G AP FL|f r t e' D EA Tt G AP FL].
    + apply (dstop_kvs NSS h kvs true true (i_dense it) _ [e'] _ (dstop_leaf NSS h kvs true true _ f r e' D HC G AP FL)).
    + apply (dstop_kvs NSS h kvs true true (i_dense it) _ [e'] _ (dstop_term NSS h kvs true true _ f r t e' D EA Tt G AP FL)).
  - pose proof (sstop_kvs NSS h kvs R0 PZ n0 K0 T0 _ _ _ _ S) as E. pose proof (bef_aft kvs R0 K0 _ _ T0) as E0. rewrite <- E0, <- E, <- !app_assoc. reflexivity.
Qed.

Lemma at_valid idle it pre e post : At idle it pre e post -> it_valid it = true.
Proof.
  intros [p e' q D _ _|R0 PZ n0 p e' q K0 T0 LH DB S]; unfold it_valid.
  - destruct (dcomp_flags _ _ _ _ D) as (-> & -> & _). reflexivity.
  - destruct (dbase_valid _ _ DB) as [-> ->]. destruct S as [f G e' S HC GE V AT]. now rewrite V.
Qed.

Lemma dbase_key d R0 PZ n0 : pok R0 -> topn R0 PZ n0 -> length R0 = h -> dbase d R0 -> d_Key d = Ok (npath n0).
Proof.
  intros K0 T0 LH DB. unfold d_Key. destruct R0 as [|f r]; cbn [dbase] in DB.
  - destruct DB as (_ & _ & _ & _ & _ & -> & -> & _). destruct (root_npath kvs _ _ T0) as [-> _]. reflexivity.
  - destruct DB as (D & -> & _). rewrite (ds_key _ _ _ _ _ _ D). destruct (top_npath NSS kvs linked wf RT _ _ _ _ K0 T0) as [-> _]. reflexivity.
Qed.

Lemma at_show idle it pre e post : At idle it pre e post ->
  it_key it = Ok (dprefix (map fst kvs) (fst e)) /\ it_value s it = Ok (firstn (c_valueSize c) (snd e)).
Proof.
  intros [p e' q D _ _|R0 PZ n0 p e' q K0 T0 LH DB S]; unfold it_key, it_value.
  - destruct (dcomp_flags _ _ _ _ D) as (_ & -> & _).
    assert (X : d_Key (i_dense it) = Ok (dprefix (map fst kvs) (fst e')) /\ d_Value (s_ld s) (i_dense it) = Ok (firstn (c_valueSize c) (snd e'))).
    { destruct D as [f r e' D HC G AP FL|f r t e' D EA Tt G AP FL].
      - eapply (show_leaf fp c NSS h s kvs SR RT LO INC NI); eauto.
      - eapply (show_term fp c NSS h s kvs SR RT LO INC NI); eauto. }
    destruct X as [-> ->]. auto.
  - rewrite (dbase_key _ _ _ _ K0 T0 LH DB). cbn [bind]. destruct (dbase_valid _ _ DB) as [_ ->].
    destruct (sshow fp c NSS h s kvs SR RT R0 PZ n0 K0 T0 LH LO INC NI _ _ _ _ S) as ((k & -> & <-) & ->). auto.
Qed.

(** What a dense move leaves: a key, or a way into the sparse part. *)
Lemma dstop_cases fl fr d pre mid post : dstop fl fr d pre mid post ->
  (exists e, mid = [e] /\ dcomp d pre e post) \/
  (exists f r, DS d f r /\ S (length r) = h /\ hasc (f_it f) = true /\ d_atPrefix d = false /\ dflags d true fl fr /\
     d_sendNode d = nid h (kids f) /\ d_sendDepth d = length (d_key d) /\ pre = bef (f :: r) /\ mid = i_grp (f_it f) /\ post = aft (f :: r)).
Proof.
  intros [f r e D HC G AP FL|f r t e D EA Tt G AP FL|f r D L HC AP FL SN SD].
  - left. exists e. split; auto. now apply dcomp_leaf.
  - left. exists e. split; auto. eapply dcomp_term; eauto.
  - right. exists f, r. auto 12.
Qed.

Lemma slen_it it : iter_for s it -> slen (i_sparse it).
Proof.
  intros F. assert (E : ls_sparseLevels (s_ls s) = length NSS - h).
  { pose proof (sr_ls fp c NSS h s SR) as R. unfold ls_sparseLevels. now rewrite (lsr_height _ _ _ _ _ _ _ R), (lsr_start _ _ _ _ _ _ _ R). }
  destruct F. constructor; congruence.
Qed.
Lemma dlen_it it : iter_for s it -> dlen h (i_dense it).
Proof. intros F. assert (E : ld_height (s_ld s) = h) by apply (ldr_h _ _ _ _ _ (sr_ld fp c NSS h s SR)). destruct F. constructor; congruence. Qed.

(** Entering the sparse part after a dense move. *)
Lemma enter (left : bool) d sp f r (idle : sparseIter -> list kv -> Prop) : sidle sp -> DS d f r -> S (length r) = h -> hasc (f_it f) = true -> d_atPrefix d = false ->
  d_valid d = true -> d_isComplete d = false ->
  d_sendNode d = nid h (kids f) -> d_sendDepth d = length (d_key d) ->
  exists it', it_sparse (passToSparse (mkIter d sp)) (p_move (if left then ls_firstLabelPos (s_ls s) else ls_lastLabelPos (s_ls s)) (s_ls s)) = Ok it' /\
    (if left then exists e post, At idle it' (bef (f :: r)) e post else exists pre e, At idle it' pre e (aft (f :: r))).
Proof.
  intros I D L HC AP V IC SN SD. unfold it_sparse, passToSparse. cbn [i_sparse i_dense].
  pose proof (ds_pok _ _ _ _ _ _ D) as PK. assert (T : topn (f :: r) (kids f) (mkchild (f_it f))) by (repeat split; auto).
  destruct (top_npath NSS kvs linked wf RT _ _ _ _ PK T) as [NP PD].
  pose proof (top_wf NSS kvs linked wf RT _ _ _ (proj1 PK) (proj1 (proj2 PK))) as Wn.
  assert (SD' : d_sendDepth d = tn_pd (mkchild (f_it f))). { rewrite SD, (ds_key _ _ _ _ _ _ D), app_length, PD, (ndpath_length _ Wn). reflexivity. }
  rewrite SN, SD'.
  destruct (move_enter fp c NSS h s kvs SR RT (f :: r) (kids f) (mkchild (f_it f)) PK T L RNT left sp I) as (p & -> & ST). cbn [bind].
  eexists. split; [reflexivity|]. assert (DB : dbase d (f :: r)) by (cbn [dbase]; auto).
  destruct left; destruct ST as (x & y & ST); eexists _, _.
  - rewrite <- (app_nil_r (bef (f :: r))). apply (at_s idle (mkIter d p) (f :: r) (kids f) (mkchild (f_it f)) [] x y PK T L DB ST).
  - apply (at_s idle (mkIter d p) (f :: r) (kids f) (mkchild (f_it f)) x y [] PK T L DB ST).
Qed.

(* ---------------------------------------------------------------- *)
(** ** Forward *)

Definition fidle (sp : sparseIter) (_ : list kv) : Prop := sidle sp.
Notation AtN := (At fidle).

Lemma after_left d sp pre : dstopL NSS h kvs d pre -> sidle sp ->
  exists it', (if negb (d_valid d) then Ok (mkIter d sp) else if d_left d then Ok (mkIter d sp) else it_sparse (passToSparse (mkIter d sp)) (p_moveLeft (s_ls s))) = Ok it' /\
    exists e post, AtN it' pre e post.
Proof.
  intros (mid & post & ST) I. destruct (dstop_cases _ _ _ _ _ _ ST) as [(e & -> & DC)|(f & r & D & L & HC & AP & (V & Se & LL & RR) & SN & SD & -> & -> & ->)].
  - destruct (dcomp_flags _ _ _ _ DC) as (-> & _ & -> & _). eexists. split; [reflexivity|]. exists e, post. apply at_d; auto. apply I.
  - rewrite V, LL. cbn [negb]. apply (enter true d sp f r fidle I D L HC AP V); auto. unfold d_isComplete. now rewrite Se, LL.
Qed.

Lemma incr_spec d sp R0 PZ n0 : pok R0 -> topn R0 PZ n0 -> length R0 = h -> dbase d R0 -> sidle sp ->
  exists it', incrDense s (mkIter d sp) = Ok it' /\
    ((aft R0 = [] /\ dead it') \/ (aft R0 <> [] /\ exists e post, AtN it' (bef R0 ++ tn_kvs n0) e post)).
Proof.
  intros K0 T0 LH DB I. unfold incrDense. cbn [i_dense i_sparse]. destruct (dbase_valid _ _ DB) as [V IC]. rewrite V. cbn [negb].
  destruct R0 as [|f r].
  - assert (DB' := DB). cbn [dbase] in DB'. destruct DB' as (H0 & _ & _ & LL & _). assert (EH : ld_height (s_ld s) = 0) by (rewrite (ldr_h _ _ _ _ _ (sr_ld fp c NSS h s SR)); exact H0).
    unfold d_next. rewrite EH. cbn [Nat.eqb bind]. rewrite V. cbn [negb]. rewrite LL. eexists. split; [reflexivity|]. left. split; auto.
    constructor; cbn [i_dense i_sparse]; auto; [apply I|apply DB|apply I].
  - destruct DB as (D & AP & _). destruct (next_spec fp c NSS h s kvs SR RT d f r D AP) as (d' & -> & RES). cbn [bind].
    destruct RES as [(A0 & V' & DL)|(A0 & ST)].
    + rewrite V'. cbn [negb]. eexists. split; [reflexivity|]. left. split; auto. constructor; cbn [i_dense i_sparse]; auto; apply I.
    + destruct (after_left d' sp _ ST I) as (it' & E & e & post & A). exists it'. split; [exact E|]. right. split; auto. exists e, post.
      destruct T0 as (HC & -> & _). exact A.
Qed.

Lemma next_at it pre e post : AtN it pre e post ->
  exists it', it_next s it = Ok it' /\
    ((post = [] /\ dead it') \/ (exists e' post', post = e' :: post' /\ AtN it' (pre ++ [e]) e' post')).
Proof.
  intros A. assert (FIN : forall it', post <> [] -> (exists e1 p1, AtN it' (pre ++ [e]) e1 p1) -> exists e' post', post = e' :: post' /\ AtN it' (pre ++ [e]) e' post').
  { intros it' NE (e1 & p1 & A1). pose proof (at_kvs _ _ _ _ _ A) as E0. pose proof (at_kvs _ _ _ _ _ A1) as E1. rewrite <- E0, <- app_assoc in E1. apply app_inv_head in E1.
    cbn [app] in E1. inversion E1. exists e1, p1. auto. }
  unfold it_next. destruct A as [p e q D I V|R0 PZ n0 p e q K0 T0 LH DB ST].
  - rewrite V. destruct it as [d sp]. cbn [i_dense i_sparse] in *. unfold incrDense. cbn [i_dense i_sparse]. destruct (dcomp_flags _ _ _ _ D) as (-> & _ & _ & _). cbn [negb].
    destruct D as [f r e D HC G AP FL|f r t e D EA Tt G AP FL].
    + destruct (next_spec fp c NSS h s kvs SR RT d f r D AP) as (d' & -> & RES). cbn [bind].
      destruct RES as [(A0 & V' & DL)|(A0 & STL)].
      * rewrite V'. cbn [negb]. eexists. split; [reflexivity|]. left. split; auto. constructor; cbn [i_dense i_sparse]; auto; apply I.
      * destruct (after_left d' sp _ STL I) as (it' & E & e1 & p1 & A). exists it'. split; [exact E|]. right. apply FIN; auto. rewrite G in A. eauto.
    + destruct (next_term fp c NSS h s kvs SR RT d f r D AP) as (d' & -> & STL). cbn [bind].
      destruct (after_left d' sp _ STL I) as (it' & E & e1 & p1 & A). exists it'. split; [exact E|]. right. apply FIN.
      * pose proof (frame_in kvs f r (ds_pok _ _ _ _ _ _ D)) as Ii. pose proof (item_grp_ne _ _ Ii). destruct (i_grp (f_it f)); [congruence|discriminate].
      * exists e1, p1. cbn [bef] in A. rewrite EA in A. cbn [map concat] in A. rewrite G in A. exact A.
  - destruct it as [d sp]. cbn [i_dense i_sparse] in *. assert (ST0 := ST). destruct ST as [f G e' S HC GE V AT]. rewrite V.
    destruct (s_next_spec fp c NSS h s kvs SR RT R0 PZ n0 T0 LH RNT sp f G S) as (sp' & -> & RES). cbn [bind]. destruct RES as [(A0 & I)|(A0 & STL)].
    + rewrite (si_valid _ _ _ I). destruct (incr_spec d sp' R0 PZ n0 K0 T0 LH DB I) as (it' & -> & RES). exists it'. split; [reflexivity|].
      destruct RES as [(AE & V')|(AE & e1 & p1 & A1)].
      * left. rewrite A0, AE. auto.
      * right. apply FIN; [rewrite A0; exact AE|]. exists e1, p1.
        rewrite <- (sstop_kvs NSS h kvs R0 PZ n0 K0 T0 _ _ _ _ ST0), A0, app_assoc in A1. exact A1.
    + destruct STL as (e1 & p1 & STL). assert (V' : p_valid sp' = true) by (destruct STL; auto). rewrite V'. eexists. split; [reflexivity|]. right. apply FIN.
      * intros X. apply app_eq_nil in X as [X _]. congruence.
      * exists e1, (p1 ++ aft R0). rewrite <- app_assoc. rewrite GE in STL. now apply (at_s _ (mkIter d sp') R0 PZ n0 _ e1 p1).
Qed.

Lemma visits_fwd : forall post it pre e, AtN it pre e post ->
  visits s (it_next s) it (map (shown (c_valueSize c) (map fst kvs)) (e :: post)).
Proof.
  induction post as [|e' post IH]; intros it pre e A; destruct (at_show _ _ _ _ _ A) as [K V]; destruct (next_at it pre e _ A) as (it' & E & [(P0 & V')|(e1 & p1 & EQ & A')]).
  - cbn [map]. eapply visits_step; eauto; [eapply at_valid; eauto|]. constructor. now apply dead_invalid.
  - discriminate.
  - discriminate.
  - inversion EQ; subst. rewrite map_cons. eapply visits_step; eauto. eapply at_valid; eauto.
Qed.

Lemma reset_idle it : iter_for s it -> sidle (i_sparse (it_reset it)).
Proof. intros F. pose proof (slen_it it F) as [L1 L2 L3]. constructor; auto. constructor; auto. Qed.
Lemma reset_dlen it : iter_for s it -> dlen h (i_dense (it_reset it)).
Proof. intros F. pose proof (dlen_it it F) as [L1 L2]. constructor; auto. Qed.

Lemma first_spec it A b B : iter_for s it -> 0 < h -> items (mknode kvs 0) = A ++ b :: B -> i_term b = false -> (forall x, In x A -> i_term x = true) ->
  exists it', it_seekToFirst s it = Ok it' /\ exists e post, AtN it' (concat (map i_grp A)) e post.
Proof.
  intros F H0 EI Tb TA. unfold it_seekToFirst. assert (EH : ld_height (s_ld s) = h) by apply (ldr_h _ _ _ _ _ (sr_ld fp c NSS h s SR)). rewrite EH.
  destruct (Nat.ltb_spec 0 h); [|lia].
  destruct (first_append fp c NSS h s kvs SR RT (i_dense (it_reset it)) [] [] (mknode kvs 0) A b B) as (d & E & D & AP); auto.
  { exact Logic.I. } { split; reflexivity. } { now apply reset_dlen. } { exact Logic.I. }
  change (SurfGet2.nid NSS (length (@nil frame)) []) with 0 in E. cbn [Nat.mul Nat.ltb Nat.leb] in E. rewrite E. cbn [bind].
  destruct (moveLeft_spec fp c NSS h s kvs SR RT d _ _ D AP) as (d' & -> & ST). cbn [bind].
  pose proof (reset_idle it F) as I. destruct (after_left d' _ _ ST I) as (it' & E' & e & post & A').
  assert (V : d_valid d' = true). { destruct ST as (mid & p & ST). destruct ST as [? ? ? ? ? ? ? (V & _)|? ? ? ? ? ? ? ? ? (V & _)|? ? ? ? ? ? (V & _)]; exact V. }
  rewrite V in E'. exists it'. split; [exact E'|]. exists e, post. exact A'.
Qed.

Theorem forward it : iter_for s it -> 0 < h -> (forall x, In x (items (mknode kvs 0)) -> i_term x = false) ->
  exists it', it_seekToFirst s it = Ok it' /\ visits s (it_next s) it' (map (shown (c_valueSize c) (map fst kvs)) kvs).
Proof.
  intros F H0 NT. pose proof (items_pos _ root_wf0) as IP. destruct (items (mknode kvs 0)) as [|b B] eqn:EI; [cbn in IP; lia|].
  destruct (first_spec it [] b B F H0 EI) as (it' & E & e & post & A); [apply NT; now left|intros x []|].
  exists it'. split; [exact E|]. pose proof (at_kvs _ _ _ _ _ A) as EK. cbn [map concat app] in A, EK. rewrite <- EK at 2. eapply visits_fwd; eauto.
Qed.

(* ---------------------------------------------------------------- *)
(** ** Backward *)

(** An unused sparse part may hold a stale key: that of the first item of the first sparse
    node, when the iterator stands before the keys of that node. *)
Definition bidle (sp : sparseIter) (pre : list kv) : Prop :=
  sidle sp \/ (exists R1 n1 f1, pok R1 /\ topn R1 [] n1 /\ length R1 = h /\ length pre < length (bef R1) /\ SS R1 n1 sp f1 [] /\ f_A f1 = [] /\ p_atTerm sp = false).
Notation AtP := (At bidle).
Lemma bidle_slen sp pre : bidle sp pre -> slen sp.
Proof. intros [I|(R1 & n1 & f1 & _ & _ & _ & _ & S & _)]; [apply I|apply (ss_len _ _ _ _ _ _ _ _ S)]. Qed.
Lemma at_mono it pre e post : AtN it pre e post -> AtP it pre e post.
Proof. intros [p e' q D I V|R0 PZ n0 p e' q K0 T0 LH DB S]; [apply at_d; auto; now left|eapply at_s; eauto]. Qed.

Lemma no_earlier R1 n1 f r : pok R1 -> topn R1 [] n1 -> length R1 = h -> pok (f :: r) -> S (length r) = h -> hasc (f_it f) = true ->
  length (bef (f :: r)) < length (bef R1) -> False.
Proof.
  intros K1 T1 L1 PK L HC LT. assert (T : topn (f :: r) (kids f) (mkchild (f_it f))) by (repeat split; auto).
  destruct (paths_order kvs R1 (f :: r) ltac:(cbn [length]; lia) K1 PK _ _ _ _ T1 T) as [(_ & _ & E)|[[_ (M & E)]|[(M & E) _]]].
  - rewrite E in LT. lia.
  - rewrite E, app_length in LT. lia.
  - destruct (kids f); discriminate.
Qed.

Lemma after_right d sp post : dstopR NSS h kvs d post -> bidle sp (firstn (length kvs - length post - 1) kvs) -> p_valid sp = false ->
  exists it', (if negb (d_valid d) then Ok (mkIter d sp) else if d_right d then Ok (mkIter d sp) else it_sparse (passToSparse (mkIter d sp)) (p_moveRight (s_ls s))) = Ok it' /\
    exists pre e, AtP it' pre e post.
Proof.
  intros (pre & mid & ST) I V0. pose proof (dstop_kvs NSS h kvs _ _ _ _ _ _ ST) as EK.
  destruct (dstop_cases _ _ _ _ _ _ ST) as [(e & -> & DC)|(f & r & D & L & HC & AP & (V & Se & LL & RR) & SN & SD & -> & -> & ->)].
  - destruct (dcomp_flags _ _ _ _ DC) as (-> & _ & _ & ->). eexists. split; [reflexivity|]. exists pre, e. apply at_d; auto. cbn [i_sparse].
    assert (EP : firstn (length kvs - length post - 1) kvs = pre).
    { rewrite <- EK, !app_length. cbn [length]. replace (length pre + (1 + length post) - length post - 1) with (length pre) by lia. rewrite firstn_app, firstn_all, Nat.sub_diag. apply app_nil_r. }
    now rewrite EP in I.
  - rewrite V, RR. cbn [negb]. pose proof (ds_pok _ _ _ _ _ _ D) as PK.
    destruct I as [I|(R1 & n1 & f1 & K1 & T1 & L1 & LT & _)].
    + apply (enter false d sp f r bidle I D L HC AP V); auto. unfold d_isComplete. now rewrite Se, LL, RR.
    + exfalso. apply (no_earlier R1 n1 f r K1 T1 L1 PK L HC). rewrite firstn_length in LT.
      pose proof (f_equal (@length _) EK) as EL. rewrite !app_length in EL.
      pose proof (frame_in kvs f r PK) as Ii. pose proof (item_grp_ne _ _ Ii) as NE. assert (0 < length (i_grp (f_it f))) by (destruct (i_grp (f_it f)); [congruence|cbn; lia]). lia.
Qed.

Hypothesis RO : root_ok kvs.

Lemma decr_spec d sp R0 PZ n0 : pok R0 -> topn R0 PZ n0 -> length R0 = h -> dbase d R0 -> slen sp -> p_valid sp = false -> p_atTerm sp = false -> (sidle sp \/ (PZ = [] /\ exists f1, SS R0 n0 sp f1 [] /\ f_A f1 = [])) ->
  exists it', decrDense s (mkIter d sp) = Ok it' /\
    ((bef R0 = [] /\ dead it') \/ (bef R0 <> [] /\ exists pre e, AtP it' pre e (tn_kvs n0 ++ aft R0))).
Proof.
  intros K0 T0 LH DB SLn VS AT I. unfold decrDense. cbn [i_dense i_sparse]. destruct (dbase_valid _ _ DB) as [V IC]. rewrite V. cbn [negb].
  destruct R0 as [|f r].
  - assert (DB' := DB). cbn [dbase] in DB'. destruct DB' as (H0 & _ & _ & _ & RR & _). assert (EH : ld_height (s_ld s) = 0) by (rewrite (ldr_h _ _ _ _ _ (sr_ld fp c NSS h s SR)); exact H0).
    unfold d_prev. rewrite EH. cbn [Nat.eqb bind]. rewrite V. cbn [negb]. rewrite RR. eexists. split; [reflexivity|]. left. split; auto.
    constructor; cbn [i_dense i_sparse]; auto; apply DB.
  - destruct DB as (D & AP & _). destruct (prev_spec fp c NSS h s kvs SR RT d f r RO D AP) as (d' & -> & RES). cbn [bind].
    destruct RES as [(A0 & V' & DL)|(A0 & ST)].
    + rewrite V'. cbn [negb]. eexists. split; [reflexivity|]. left. split; auto. constructor; cbn [i_dense i_sparse]; auto; apply I.
    + assert (EN : tn_kvs n0 = i_grp (f_it f)) by (destruct T0 as (_ & -> & _); reflexivity). rewrite EN.
      destruct (after_right d' sp _ ST) as (it' & E & pre & e & A); auto.
      * destruct I as [I|[-> (f1 & S1 & A1)]]; [now left|right]. exists (f :: r), n0, f1. split; auto. split; auto. split; auto. split; auto.
        pose proof (bef_aft_it kvs f r K0) as EK. pose proof (f_equal (@length _) EK) as EL. rewrite !app_length in EL. rewrite firstn_length, app_length.
        assert (0 < length (bef (f :: r))) by (destruct (bef (f :: r)); [congruence|cbn; lia]). lia.
      * exists it'. split; [exact E|]. right. split; auto. exists pre, e. exact A.
Qed.

Lemma prev_at it pre e post : AtP it pre e post ->
  exists it', it_prev s it = Ok it' /\
    ((pre = [] /\ dead it') \/ (exists e' pre', pre = pre' ++ [e'] /\ AtP it' pre' e' (e :: post))).
Proof.
  intros A. assert (FIN : forall it', (exists p1 e1, AtP it' p1 e1 (e :: post)) -> exists e' pre', pre = pre' ++ [e'] /\ AtP it' pre' e' (e :: post)).
  { intros it' (p1 & e1 & A1). pose proof (at_kvs _ _ _ _ _ A) as E0. pose proof (at_kvs _ _ _ _ _ A1) as E1. rewrite <- E0 in E1.
    change (p1 ++ e1 :: e :: post) with (p1 ++ [e1] ++ (e :: post)) in E1. rewrite app_assoc in E1. apply app_inv_tail in E1. exists e1, p1. auto. }
  assert (LEN : length kvs - length (e :: post) - 1 = length pre - 1). { rewrite <- (at_kvs _ _ _ _ _ A), app_length. cbn [length]. lia. }
  assert (FP : firstn (length pre - 1) kvs = firstn (length pre - 1) pre). { rewrite <- (at_kvs _ _ _ _ _ A), firstn_app. replace (length pre - 1 - length pre) with 0 by lia. apply app_nil_r. }
  unfold it_prev. destruct A as [p e q D I V|R0 PZ n0 p e q K0 T0 LH DB ST].
  - assert (I' : bidle (i_sparse it) (firstn (length kvs - length (e :: q) - 1) kvs)).
    { rewrite LEN, FP. destruct I as [I|(R1 & n1 & f1 & K1 & T1 & L1 & LT & S1)]; [now left|right]. exists R1, n1, f1. split; auto. split; auto. split; auto. split; auto. rewrite firstn_length. lia. }
    rewrite V. destruct it as [d sp]. cbn [i_dense i_sparse] in *. unfold decrDense. cbn [i_dense i_sparse]. destruct (dcomp_flags _ _ _ _ D) as (-> & _ & _ & _). cbn [negb].
    destruct D as [f r e D HC G AP FL|f r t e D EA Tt G AP FL].
    + destruct (prev_spec fp c NSS h s kvs SR RT d f r RO D AP) as (d' & -> & RES). cbn [bind].
      destruct RES as [(A0 & V' & DL)|(A0 & STR)].
      * rewrite V'. cbn [negb]. eexists. split; [reflexivity|]. left. split; auto. constructor; cbn [i_dense i_sparse]; auto. eapply bidle_slen; eauto.
      * rewrite G in STR. destruct (after_right d' sp _ STR I' V) as (it' & E & p1 & e1 & A). exists it'. split; [exact E|]. right. apply FIN; eauto.
    + destruct (prev_term fp c NSS h s kvs SR RT d f r t RO D AP EA Tt) as (d' & -> & RES). cbn [bind].
      destruct RES as [(A0 & V' & DL)|(A0 & STR)].
      * rewrite V'. cbn [negb]. eexists. split; [reflexivity|]. left. split; auto. constructor; cbn [i_dense i_sparse]; auto. eapply bidle_slen; eauto.
      * rewrite G in STR. destruct (after_right d' sp _ STR I' V) as (it' & E & p1 & e1 & A). exists it'. split; [exact E|]. right. apply FIN; eauto.
  - destruct it as [d sp]. cbn [i_dense i_sparse] in *. assert (ST0 := ST). destruct ST as [f G e' S HC GE V AT]. rewrite V.
    destruct (s_prev_spec fp c NSS h s kvs SR RT R0 PZ n0 K0 T0 LH RNT sp f G S) as (sp' & -> & RES). cbn [bind]. destruct RES as [(A0 & SL & V' & AT' & I)|(A0 & STR)].
    + rewrite V'. destruct (decr_spec d sp' R0 PZ n0 K0 T0 LH DB SL V' AT' I) as (it' & -> & RES). exists it'. split; [reflexivity|].
      destruct RES as [(AE & VI)|(AE & p1 & e1 & A1)].
      * left. rewrite A0, AE. auto.
      * right. apply FIN. exists p1, e1. rewrite <- (sstop_kvs NSS h kvs R0 PZ n0 K0 T0 _ _ _ _ ST0), A0 in A1. exact A1.
    + destruct STR as (p1 & e1 & STR). assert (V' : p_valid sp' = true) by (destruct STR; auto). rewrite V'. eexists. split; [reflexivity|]. right. apply FIN.
      exists (bef R0 ++ p1), e1. rewrite GE in STR. change (e' :: aft (f :: G) ++ aft R0) with (([e'] ++ aft (f :: G)) ++ aft R0). now apply (at_s _ (mkIter d sp') R0 PZ n0 p1 e1).
Qed.

Lemma visits_bwd : forall pre it e post, AtP it pre e post ->
  visits s (it_prev s) it (map (shown (c_valueSize c) (map fst kvs)) (e :: rev pre)).
Proof.
  intros pre. remember (length pre) as m eqn:Em. revert pre Em. induction m as [|m IH]; intros pre Em it e post A; destruct (at_show _ _ _ _ _ A) as [K V];
    destruct (prev_at it pre e _ A) as (it' & E & [(P0 & V')|(e1 & p1 & -> & A')]).
  - subst pre. cbn [rev map]. eapply visits_step; eauto; [eapply at_valid; eauto|]. constructor. now apply dead_invalid.
  - rewrite app_length in Em. cbn in Em. lia.
  - subst pre. discriminate.
  - rewrite app_length in Em. cbn [length] in Em. rewrite rev_app_distr. cbn [rev app]. rewrite map_cons. eapply visits_step; eauto; [eapply at_valid; eauto|]. apply (IH p1 ltac:(lia) _ _ _ A').
Qed.

Lemma last_root : exists A b, items (mknode kvs 0) = A ++ [b] /\ i_term b = false.
Proof.
  pose proof (items_pos _ root_wf0) as IP. destruct (last_split (items (mknode kvs 0))) as [E|(A & b & E)]; [rewrite E in IP; cbn in IP; lia|]. exists A, b. split; auto.
  apply (root_noterm kvs b RO). rewrite E. apply in_or_app. right. now left.
Qed.

Lemma last_spec it : iter_for s it -> 0 < h ->
  exists it', it_seekToLast s it = Ok it' /\ exists pre e, AtP it' pre e [].
Proof.
  intros F H0. unfold it_seekToLast. assert (EH : ld_height (s_ld s) = h) by apply (ldr_h _ _ _ _ _ (sr_ld fp c NSS h s SR)). rewrite EH.
  destruct (Nat.ltb_spec 0 h); [|lia]. destruct last_root as (A & b & EI & Tb).
  destruct (setToLast_spec fp c NSS h s kvs SR RT (i_dense (it_reset it)) A b) as (d & -> & D & AP); auto. { now apply reset_dlen. } cbn [bind].
  destruct (moveRight_spec fp c NSS h s kvs SR RT d _ _ D AP) as (d' & -> & ST). cbn [bind].
  pose proof (reset_idle it F) as I. destruct (after_right d' (i_sparse (it_reset it)) _ ST) as (it' & E' & pre & e & A'); [now left|apply I|].
  assert (V : d_valid d' = true). { destruct ST as (p & mid & ST). destruct ST as [? ? ? ? ? ? ? (V & _)|? ? ? ? ? ? ? ? ? (V & _)|? ? ? ? ? ? (V & _)]; exact V. }
  rewrite V in E'. exists it'. split; [exact E'|]. exists pre, e. exact A'.
Qed.

Theorem backward it : iter_for s it -> 0 < h ->
  exists it', it_seekToLast s it = Ok it' /\ visits s (it_prev s) it' (map (shown (c_valueSize c) (map fst kvs)) (rev kvs)).
Proof.
  intros F H0. destruct (last_spec it F H0) as (it' & E & pre & e & A). exists it'. split; [exact E|].
  pose proof (at_kvs _ _ _ _ _ A) as EK. rewrite <- EK at 2. rewrite rev_app_distr. cbn [rev app]. eapply visits_bwd; eauto.
Qed.

(* ---------------------------------------------------------------- *)
(** ** Forward after backward: the stale key is that of the node entered next. *)

Lemma inside G R P n P' n' : pok (G ++ R) -> topn (G ++ R) P n -> pok R -> topn R P' n' ->
  length (bef (G ++ R)) + length (tn_kvs n) <= length (bef R) + length (tn_kvs n').
Proof.
  intros K T K' T'. pose proof (f_equal (@length _) (bef_aft kvs _ K _ _ T)) as E. pose proof (f_equal (@length _) (bef_aft kvs _ K' _ _ T')) as E'.
  rewrite aft_app in E. rewrite !app_length in *. lia.
Qed.
Lemma kvs_pos r P n : pok r -> topn r P n -> 0 < length (tn_kvs n).
Proof.
  intros K T. pose proof (items_pos n (top_wf NSS kvs linked wf RT _ _ _ K T)) as IP. rewrite <- (items_kvs (tn_d n) (tn_kvs n)). fold (items n).
  destruct (items n) as [|x l] eqn:EI; [cbn in IP; lia|]. cbn [map concat]. rewrite app_length.
  assert (NE : i_grp x <> []) by (apply (item_grp_ne n); rewrite EI; now left). destruct (i_grp x); [congruence|cbn [length]; lia].
Qed.

(** A key found in the dense part is not the first key below a sparse node. *)
Lemma leaf_apart f r R1 P1 n1 : pok (f :: r) -> length r < h -> hasc (f_it f) = false -> pok R1 -> topn R1 P1 n1 -> length R1 = h ->
  length (bef (f :: r)) <> length (bef R1).
Proof.
  intros PK L HC K1 T1 L1 EQ. pose proof (kvs_pos R1 P1 n1 K1 T1) as KP.
  assert (exists G g r', R1 = G ++ g :: r' /\ length r' = length r) as (G & g & r' & -> & LR).
  { exists (firstn (h - S (length r)) R1). assert (LS : length (skipn (h - S (length r)) R1) = S (length r)) by (rewrite skipn_length; lia).
    destruct (skipn (h - S (length r)) R1) as [|g r'] eqn:E; [discriminate|]. exists g, r'. split; [rewrite <- E; now rewrite firstn_skipn|cbn in LS; lia]. }
  assert (KG : pok (g :: r')). { clear -K1. revert K1. induction G as [|x G IH]; auto. intros (K & _). auto. }
  assert (HG : hasc (f_it g) = true). { destruct G as [|x G]; [apply T1|]. cbn [app] in K1. clear -K1. revert x K1. induction G as [|y G IH]; intros x (K & T & _); [apply T|]. apply (IH y). exact K. }
  assert (TG : topn (g :: r') (kids g) (mkchild (f_it g))) by (repeat split; auto).
  pose proof (inside G (g :: r') _ _ _ _ K1 T1 KG TG) as IN. rewrite bef_app in EQ, IN. cbn [tn_kvs mkchild] in IN. rewrite !app_length in *.
  change (tn_kvs (mkchild (f_it g))) with (i_grp (f_it g)) in IN.
  pose proof KG as (KR & TR & EIG). pose proof PK as (PR & TP & EIF).
  pose proof (bef_aft_it kvs f r PK) as BF. pose proof (bef_aft_it kvs g r' KG) as BG. pose proof (bef_aft kvs r PR _ _ TP) as BR. pose proof (bef_aft kvs r' KR _ _ TR) as BR'.
  apply (f_equal (@length _)) in BF, BG, BR, BR'. rewrite !app_length in BF, BG, BR, BR'. pose proof (item_grp_ne _ _ (frame_in kvs f r PK)) as NF. assert (0 < length (i_grp (f_it f))) by (destruct (i_grp (f_it f)); [congruence|cbn; lia]).
  assert (AFF : length (aft (f :: r)) = length (concat (map i_grp (f_B f))) + length (aft r)) by (cbn [aft]; now rewrite app_length).
  assert (AFG : length (aft (g :: r')) = length (concat (map i_grp (f_B g))) + length (aft r')) by (cbn [aft]; now rewrite app_length).
  assert (BEF : length (bef (f :: r)) = length (bef r) + length (concat (map i_grp (f_A f)))) by (cbn [bef]; now rewrite app_length).
  assert (BEG : length (bef (g :: r')) = length (bef r') + length (concat (map i_grp (f_A g)))) by (cbn [bef]; now rewrite app_length).
  destruct (paths_order kvs r' r LR KR PR _ _ _ _ TR TP) as [(_ & EN & EB)|[[_ (M & E)]|[_ (M & E)]]].
  - rewrite EN, EIF in EIG. rewrite EB in *. destruct (split3 _ _ _ _ _ _ EIG) as [(EA & EX & _)|[(M & EA)|(M & EA)]].
    + congruence.
    + rewrite EA, map_app, concat_app, app_length in BEG. cbn [map concat] in BEG. rewrite app_length in BEG. lia.
    + rewrite EA, map_app, concat_app, app_length in BEF. cbn [map concat] in BEF. rewrite app_length in BEF. lia.
  - apply (f_equal (@length _)) in E. rewrite !app_length in E. lia.
  - apply (f_equal (@length _)) in E. rewrite !app_length in E. lia.
Qed.

Lemma dcomp_apart d pre e post R1 P1 n1 : dcomp d pre e post -> pok R1 -> topn R1 P1 n1 -> length R1 = h -> length pre <> length (bef R1).
Proof.
  intros [f r e' D HC G AP FL|f r t e' D EA Tt G AP FL] K1 T1 L1; pose proof (ds_pok _ _ _ _ _ _ D) as PK; pose proof (ds_h _ _ _ _ _ _ D) as LR.
  - eapply leaf_apart; eauto.
  - set (f' := mkF (f_P f) (f_n f) [] t (f_it f :: f_B f)). assert (PK' : pok (f' :: r)) by (destruct PK as (K & T & EI); split; [exact K|]; split; [exact T|]; cbn [f' f_n f_A f_it f_B app]; rewrite EI, EA; reflexivity).
    assert (B' : bef (f' :: r) = bef r) by (cbn [bef f' f_A map concat]; apply app_nil_r). rewrite <- B'. eapply leaf_apart; eauto. cbn [f' f_it].
    destruct (hasc t) eqn:HT; auto. assert (It : In t (items (f_n f))) by (destruct PK as (_ & _ & EI); rewrite EI, EA; now left). rewrite (item_hasc_noterm (f_n f) t It HT) in Tt. discriminate.
Qed.

(** Entering the sparse part with a stale key. *)
Lemma enter_stale d sp f r R1 n1 f1 : pok R1 -> topn R1 [] n1 -> length R1 = h -> SS R1 n1 sp f1 [] -> f_A f1 = [] -> p_atTerm sp = false ->
  DS d f r -> S (length r) = h -> hasc (f_it f) = true -> d_atPrefix d = false -> d_valid d = true -> d_isComplete d = false ->
  d_sendNode d = nid h (kids f) -> d_sendDepth d = length (d_key d) -> length (bef (f :: r)) <= length (bef R1) ->
  exists it', it_sparse (passToSparse (mkIter d sp)) (p_moveLeft (s_ls s)) = Ok it' /\ exists e post, AtP it' (bef (f :: r)) e post.
Proof.
  intros K1 T1 L1 S1 A1 AT D L HC AP V IC SN SD LE. unfold it_sparse, passToSparse. cbn [i_sparse i_dense].
  pose proof (ds_pok _ _ _ _ _ _ D) as PK. assert (T : topn (f :: r) (kids f) (mkchild (f_it f))) by (repeat split; auto).
  destruct (top_npath NSS kvs linked wf RT _ _ _ _ PK T) as [NP PD].
  pose proof (top_wf NSS kvs linked wf RT _ _ _ (proj1 PK) (proj1 (proj2 PK))) as Wn.
  assert (SD' : d_sendDepth d = tn_pd (mkchild (f_it f))). { rewrite SD, (ds_key _ _ _ _ _ _ D), app_length, PD, (ndpath_length _ Wn). reflexivity. }
  rewrite SN, SD'.
  destruct (paths_order kvs R1 (f :: r) ltac:(cbn [length]; lia) K1 PK _ _ _ _ T1 T) as [(EP & EN & EB)|[[_ (M & E)]|[(M & E) _]]].
  - assert (S2 : SS (f :: r) (mkchild (f_it f)) (p_setStart sp (nid h (kids f)) (tn_pd (mkchild (f_it f)))) f1 []).
    { destruct S1 as [s1 [s2 s3 s4] s5 s6 s7 s8]. rewrite EN in *. constructor; auto.
      - constructor; auto.
      - cbn [sslots] in s5 |- *. destruct s5 as [(X1 & X2 & X3) _]. split; [|exact Logic.I]. cbn [app] in *. split; [exact X1|]. split; [|exact X3]. cbn [app length] in *. rewrite L. rewrite L1 in X2. exact X2.
      - cbn [app] in s7 |- *. destruct s7 as (_ & T7 & E7). destruct (topn_fun kvs _ _ _ _ _ T7 T1) as [E8 E9]. split; [exact PK|]. split; [|exact E7]. rewrite E8, EP, E9. exact T. }
    destruct (move_at fp c NSS h s kvs SR RT (f :: r) (kids f) (mkchild (f_it f)) T L RNT true _ _ _ S2) as (p & E & ST); [exact AT|]. unfold p_moveLeft. rewrite E. cbn [bind].
    eexists. split; [reflexivity|]. destruct ST as (e & post & ST). exists e, (post ++ aft (f :: r)). cbn [bef] in ST. rewrite A1 in ST. cbn [map concat app] in ST.
    rewrite <- (app_nil_r (bef (f :: r))). apply (at_s bidle (mkIter d p) (f :: r) (kids f) (mkchild (f_it f)) [] e post PK T L); auto. cbn [dbase]. auto.
  - exfalso. pose proof (kvs_pos _ _ _ K1 T1). apply (f_equal (@length _)) in E. rewrite !app_length in E. lia.
  - destruct (kids f); discriminate.
Qed.

Lemma after_leftP d sp pre : dstopL NSS h kvs d pre -> p_valid sp = false ->
  (sidle sp \/ (exists R1 n1 f1, pok R1 /\ topn R1 [] n1 /\ length R1 = h /\ length pre <= length (bef R1) /\ SS R1 n1 sp f1 [] /\ f_A f1 = [] /\ p_atTerm sp = false)) ->
  exists it', (if negb (d_valid d) then Ok (mkIter d sp) else if d_left d then Ok (mkIter d sp) else it_sparse (passToSparse (mkIter d sp)) (p_moveLeft (s_ls s))) = Ok it' /\
    exists e post, AtP it' pre e post.
Proof.
  intros ST VS [I|(R1 & n1 & f1 & K1 & T1 & L1 & LE & S1 & A1 & AT)].
  { destruct (after_left d sp pre ST I) as (it' & E & e & post & A). exists it'. split; auto. exists e, post. now apply at_mono. }
  destruct ST as (mid & post & ST). destruct (dstop_cases _ _ _ _ _ _ ST) as [(e & -> & DC)|(f & r & D & L & HC & AP & (V & Se & LL & RR) & SN & SD & -> & -> & ->)].
  - destruct (dcomp_flags _ _ _ _ DC) as (-> & _ & -> & _). eexists. split; [reflexivity|]. exists e, post. apply at_d; auto. right. exists R1, n1, f1.
    pose proof (dcomp_apart _ _ _ _ R1 _ _ DC K1 T1 L1). repeat (split; auto). lia.
  - rewrite V, LL. cbn [negb]. eapply enter_stale; eauto. unfold d_isComplete. now rewrite Se, LL.
Qed.

Lemma next_atP it pre e post : AtP it pre e post ->
  exists it', it_next s it = Ok it' /\
    ((post = [] /\ dead it') \/ (exists e' post', post = e' :: post' /\ AtP it' (pre ++ [e]) e' post')).
Proof.
  intros A. assert (FIN : forall it', post <> [] -> (exists e1 p1, AtP it' (pre ++ [e]) e1 p1) -> exists e' post', post = e' :: post' /\ AtP it' (pre ++ [e]) e' post').
  { intros it' NE (e1 & p1 & A1). pose proof (at_kvs _ _ _ _ _ A) as E0. pose proof (at_kvs _ _ _ _ _ A1) as E1. rewrite <- E0, <- app_assoc in E1. apply app_inv_head in E1.
    cbn [app] in E1. inversion E1. exists e1, p1. auto. }
  destruct A as [p e q D I V|R0 PZ n0 p e q K0 T0 LH DB ST].
  - assert (I' : sidle (i_sparse it) \/ (exists R1 n1 f1, pok R1 /\ topn R1 [] n1 /\ length R1 = h /\ length (p ++ [e]) <= length (bef R1) /\ SS R1 n1 (i_sparse it) f1 [] /\ f_A f1 = [] /\ p_atTerm (i_sparse it) = false)).
    { destruct I as [I|(R1 & n1 & f1 & K1 & T1 & L1 & LT & S1)]; [now left|right]. exists R1, n1, f1. rewrite app_length. cbn [length]. repeat (split; auto). lia. }
    unfold it_next. rewrite V. destruct it as [d sp]. cbn [i_dense i_sparse] in *. unfold incrDense. cbn [i_dense i_sparse]. destruct (dcomp_flags _ _ _ _ D) as (-> & _ & _ & _). cbn [negb].
    destruct D as [f r e D HC G AP FL|f r t e D EA Tt G AP FL].
    + destruct (next_spec fp c NSS h s kvs SR RT d f r D AP) as (d' & -> & RES). cbn [bind].
      destruct RES as [(A0 & V' & DL)|(A0 & STL)].
      * rewrite V'. cbn [negb]. eexists. split; [reflexivity|]. left. split; auto. constructor; cbn [i_dense i_sparse]; auto. eapply bidle_slen; eauto.
      * rewrite G in STL. destruct (after_leftP d' sp _ STL V I') as (it' & E & e1 & p1 & A). exists it'. split; [exact E|]. right. apply FIN; eauto.
    + destruct (next_term fp c NSS h s kvs SR RT d f r D AP) as (d' & -> & STL). cbn [bind].
      cbn [bef] in STL. rewrite EA in STL. cbn [map concat] in STL. rewrite G in STL. cbn [app] in STL.
      destruct (after_leftP d' sp _ STL V I') as (it' & E & e1 & p1 & A). exists it'. split; [exact E|]. right. apply FIN; eauto.
      pose proof (frame_in kvs f r (ds_pok _ _ _ _ _ _ D)) as Ii. pose proof (item_grp_ne _ _ Ii). destruct (i_grp (f_it f)); [congruence|discriminate].
  - destruct (next_at it _ _ _ (at_s fidle it R0 PZ n0 p e q K0 T0 LH DB ST)) as (it' & E & [RES|(e' & post' & EP & A)]); exists it'; (split; [exact E|]); [now left|right].
    exists e', post'. split; auto. now apply at_mono.
Qed.

(** An iterator placed on a key or off the keys keeps its buffers. *)
Lemma atP_for it pre e post : AtP it pre e post -> iter_for s it.
Proof.
  assert (EH : ld_height (s_ld s) = h) by apply (ldr_h _ _ _ _ _ (sr_ld fp c NSS h s SR)).
  assert (ES : ls_sparseLevels (s_ls s) = length NSS - h). { pose proof (sr_ls fp c NSS h s SR) as R. unfold ls_sparseLevels. now rewrite (lsr_height _ _ _ _ _ _ _ R), (lsr_start _ _ _ _ _ _ _ R). }
  intros A. assert (DL : dlen h (i_dense it) /\ slen (i_sparse it)).
  { destruct A as [p e' q D I V|R0 PZ n0 p e' q K0 T0 LH DB S].
    - split; [|eapply bidle_slen; eauto]. destruct D as [f r e' D _ _ _ _|f r t e' D _ _ _ _ _]; apply (ds_len _ _ _ _ _ _ D).
    - split; [|destruct S as [f G e' S _ _ _ _]; apply (ss_len _ _ _ _ _ _ _ _ S)]. destruct R0 as [|f r]; cbn [dbase] in DB; [apply DB|]. destruct DB as (D & _). apply (ds_len _ _ _ _ _ _ D). }
  destruct DL as [[D1 D2] [S1 S2 S3]]. constructor; congruence.
Qed.
Lemma dead_for it : dead it -> iter_for s it.
Proof.
  assert (EH : ld_height (s_ld s) = h) by apply (ldr_h _ _ _ _ _ (sr_ld fp c NSS h s SR)).
  assert (ES : ls_sparseLevels (s_ls s) = length NSS - h). { pose proof (sr_ls fp c NSS h s SR) as R. unfold ls_sparseLevels. now rewrite (lsr_height _ _ _ _ _ _ _ R), (lsr_start _ _ _ _ _ _ _ R). }
  intros [[S1 S2 S3] [D1 D2] _ _]. constructor; congruence.
Qed.
End Top.
