(** * The sparse iterator walks the paths of the trie. *)
From Coq Require Import Sorted.
From Verif Require Import Base BitsModel BitsFacts VecModel VecProofs VecProofs2 SurfModel SurfTrie SurfSuffix SurfBuild SurfDense SurfEnc SurfBuildTop SurfGet SurfGet2 SurfSpec SurfWalk SurfTop SurfIter SurfIterPath SurfIterDense.
Ltac Zify.zify_post_hook ::= Z.div_mod_to_equations.

Section SBits.
Variable fp : bytes -> N.
Variable c : config.
Variables (ls : loudsSparse) (height h : nat) (DN S1 S2 : list tnode) (n : tnode).
Notation SN := (S1 ++ n :: S2).
Hypothesis R : ls_rep fp c ls height h DN SN.
Hypothesis W : Forall nwf SN.
Notation P0 := (length (flat_map items S1)).

Lemma sb_Wn : nwf n. Proof. apply Forall_app in W as [_ W']. now inversion W'. Qed.
Lemma sb_bv : bv_rep (sv_bv (ls_louds ls)) (flat_map loudsb SN).
Proof. apply (lsr_louds _ _ _ _ _ _ _ R). Qed.
Lemma sb_len : bv_numBits (sv_bv (ls_louds ls)) = P0 + length (items n) + length (flat_map items S2).
Proof. pose proof sb_bv as (N1 & _). rewrite N1, louds_length by auto. rewrite flat_map_app, app_length. cbn [flat_map]. rewrite app_length. lia. Qed.

Lemma s_prefix_at : getPrefix (ls_prefix ls) (length S1) = Ok (nprefix n).
Proof.
  rewrite (getPrefix_correct _ _ _ (lsr_pre _ _ _ _ _ _ _ R)).
  - f_equal. rewrite map_app. cbn [map]. rewrite app_nth2 by (rewrite map_length; lia). rewrite map_length, Nat.sub_diag. reflexivity.
  - rewrite map_length, app_length. cbn [length]. lia.
Qed.

Lemma s_isset p : p < length (items n) -> bv_isSet (sv_bv (ls_louds ls)) (P0 + p) = Ok (Nat.eqb p 0).
Proof.
  intros L. pose proof sb_len as SL. pose proof sb_bv as BV. pose proof BV as (N1 & _).
  rewrite (bv_isSet_spec _ _ (P0 + p) BV) by lia. now rewrite (s_louds_head S1 S2 n W).
Qed.

Lemma s_isset_next : S2 <> [] -> bv_isSet (sv_bv (ls_louds ls)) (P0 + length (items n)) = Ok true.
Proof.
  intros NE. pose proof sb_len as SL. pose proof sb_bv as BV. pose proof BV as (N1 & _).
  assert (ES : exists m S3, S2 = m :: S3) by (destruct S2; [congruence|eauto]). destruct ES as (m & S3 & ES).
  assert (Wm : nwf m). { apply Forall_app in W as [_ W']. rewrite ES in W'. inversion W'; subst. now inversion H2. }
  pose proof (items_pos m Wm) as IP.
  assert (LE : length (flat_map items S2) = length (items m) + length (flat_map items S3)) by (rewrite ES; cbn [flat_map]; apply app_length).
  rewrite (bv_isSet_spec _ _ _ BV) by lia. f_equal.
  assert (W1 : Forall nwf S1) by (apply Forall_app in W; apply W).
  assert (EQ : SN = (S1 ++ [n]) ++ m :: S3) by (rewrite <- app_assoc, ES; reflexivity). 
  pose proof (s_louds_head (S1 ++ [n]) S3 m) as X. rewrite <- EQ in X. specialize (X W 0 IP). rewrite flat_map_app, app_length in X. cbn [flat_map] in X. rewrite app_nil_r in X.
  rewrite Nat.add_0_r in X. exact X.
Qed.

Lemma s_up A x B : items n = A ++ x :: B ->
  (if Nat.leb (bv_numBits (sv_bv (ls_louds ls))) (P0 + length A + 1) then Ok true else bv_isSet (sv_bv (ls_louds ls)) (P0 + length A + 1)) =
  Ok (match B with [] => true | _ => false end).
Proof.
  intros EI. pose proof sb_len as SL. assert (LI : length (items n) = length A + S (length B)) by (rewrite EI, app_length; reflexivity).
  destruct (Nat.leb_spec (bv_numBits (sv_bv (ls_louds ls))) (P0 + length A + 1)) as [L|L].
  - destruct B; [reflexivity|]. cbn [length] in LI. lia.
  - destruct B as [|b B].
    + cbn [length] in LI. replace (P0 + length A + 1) with (P0 + length (items n)) by lia. apply s_isset_next.
      intros E. rewrite E in SL. cbn [flat_map length] in SL. lia.
    + cbn [length] in LI. rewrite <- Nat.add_assoc. rewrite s_isset by lia. f_equal. apply Nat.eqb_neq. lia.
Qed.

Lemma s_isEnd A x B : items n = A ++ x :: B -> ls_isEndOfNode ls (P0 + length A) = Ok (match B with [] => true | _ => false end).
Proof.
  intros EI. unfold ls_isEndOfNode. pose proof sb_len as SL. assert (LI : length (items n) = length A + S (length B)) by (rewrite EI, app_length; reflexivity).
  unfold sub_chk. destruct (Nat.leb_spec 1 (bv_numBits (sv_bv (ls_louds ls)))); [|lia]. cbn [bind].
  destruct (Nat.eqb_spec (P0 + length A) (bv_numBits (sv_bv (ls_louds ls)) - 1)) as [E|E].
  - destruct B; [reflexivity|]. cbn [length] in LI. lia.
  - pose proof (s_up A x B EI) as U. destruct (Nat.leb_spec (bv_numBits (sv_bv (ls_louds ls))) (P0 + length A + 1)); [lia|]. exact U.
Qed.

Lemma s_lastLabelPos : ls_lastLabelPos ls (length DN + length S1) = Ok (P0 + (length (items n) - 1)).
Proof.
  unfold ls_lastLabelPos. pose proof sb_len as SL. pose proof (items_pos n sb_Wn) as IP. rewrite (lsr_dn _ _ _ _ _ _ _ R).
  unfold sub_chk at 1. destruct (Nat.leb_spec (length DN) (length DN + length S1 + 2)); [|lia]. cbn [bind].
  replace (length DN + length S1 + 2 - length DN) with (length S1 + 2) by lia.
  pose proof (lsr_louds _ _ _ _ _ _ _ R) as (_ & ON & _). rewrite ON, cnt_louds by auto. rewrite app_length. cbn [length].
  assert (ES : S2 = [] \/ exists m S3, S2 = m :: S3) by (destruct S2; eauto). destruct ES as [ES|(m & S3 & ES)].
  - rewrite ES in SL |- *. cbn [flat_map length] in SL |- *. destruct (Nat.ltb_spec (length S1 + 1) (length S1 + 2)); [|lia].
    unfold sub_chk. destruct (Nat.leb_spec 1 (bv_numBits (sv_bv (ls_louds ls)))); [|lia]. f_equal. lia.
  - destruct (Nat.ltb_spec (length S1 + S (length S2)) (length S1 + 2)) as [L|L]; [rewrite ES in L; cbn [length] in L; lia|].
    assert (EQ : SN = (S1 ++ [n]) ++ m :: S3) by (rewrite <- app_assoc, ES; reflexivity). pose proof R as R'. pose proof W as W'. rewrite EQ in R', W'.
    pose proof (s_firstLabelPos fp c ls height h DN (S1 ++ [n]) S3 m R' W') as F. unfold ls_firstLabelPos in F. rewrite (lsr_dn _ _ _ _ _ _ _ R) in F.
    rewrite app_length in F. cbn [length] in F. unfold sub_chk in F. destruct (Nat.leb_spec (length DN) (length DN + (length S1 + 1) + 1)); [|lia]. cbn [bind] in F.
    replace (length DN + (length S1 + 1) + 1 - length DN) with (length S1 + 2) in F by lia. rewrite F. cbn [bind].
    rewrite flat_map_app, app_length. cbn [flat_map]. rewrite app_nil_r. unfold sub_chk. match goal with |- (if Nat.leb ?a ?b then _ else _) = _ => destruct (Nat.leb_spec a b); [|lia] end. f_equal. lia.
Qed.
End SBits.

Lemma bef_app G R : bef (G ++ R) = bef R ++ bef G.
Proof. induction G as [|f G IH]; cbn [app bef]; [now rewrite app_nil_r|]. now rewrite IH, app_assoc. Qed.
Lemma aft_app G R : aft (G ++ R) = aft G ++ aft R.
Proof. induction G as [|f G IH]; cbn [app aft]; auto. now rewrite IH, app_assoc. Qed.

Lemma is_prefix_skipn k (a b : bytes) : k <= length a -> is_prefix a b -> is_prefix (skipn k a) (skipn k b).
Proof. intros L (x & ->). exists x. rewrite skipn_app. replace (k - length a) with 0 by lia. reflexivity. Qed.

Section SWalk.
Variable fp : bytes -> N.
Variable c : config.
Variables (NSS : list (list tnode)) (h : nat) (s : surf) (kvs : list kv).
Hypothesis SR : surf_rep fp c NSS h s.
Hypothesis RT : nth_error NSS 0 = Some [mknode kvs 0].
Notation ls := (s_ls s).
Notation nid := (nid NSS).
Notation topn := (topn kvs).
Notation pok := (pok kvs).
Notation linked := (dw_linked fp c NSS h s SR).
Notation wf := (dw_wf fp c NSS h s SR).
(** The path through the dense levels and the sparse node it leads to. *)
Variables (R0 : list frame) (PZ : list tnode) (n0 : tnode).
Hypothesis K0 : pok R0.
Hypothesis T0 : topn R0 PZ n0.
Hypothesis LH : length R0 = h.
Notation base := (tn_pd n0).
Notation lvl G := (length (G ++ R0)).

Definition spre (l : nat) (P : list tnode) : list tnode := concat (firstn l (skipn h NSS)) ++ P.
Definition sp (G : list frame) (P : list tnode) : nat := length (flat_map items (spre (length G) P)).

Lemma sparse_at G P n : pok (G ++ R0) -> topn (G ++ R0) P n ->
  exists S1 S2, concat (skipn h NSS) = S1 ++ n :: S2 /\ nid (lvl G) P = length (concat (firstn h NSS)) + length S1 /\ S1 = spre (length G) P /\
    ls_rep fp c ls (length NSS) h (concat (firstn h NSS)) (S1 ++ n :: S2) /\ Forall nwf (S1 ++ n :: S2) /\ (2 <= length (items n) \/ S1 = []) /\
    lvl G < length NSS.
Proof.
  intros PK T. destruct (top_at NSS kvs linked RT _ PK P n T) as (Q & AT).
  destruct (at_sparse NSS h (lvl G) P n Q AT) as [AS AF]. { rewrite app_length. lia. }
  replace (lvl G - h) with (length G) in AS, AF by (rewrite app_length; lia). fold (spre (length G) P) in AS.
  eexists _, _. split; [exact AS|]. split; [|split; [reflexivity|]].
  - unfold SurfGet2.nid, spre. rewrite AF, !app_length. lia.
  - rewrite <- AS. split; [apply (sr_ls fp c NSS h s SR)|]. split; [apply (wf_sparse fp c NSS h s SR)|]. split.
    + destruct (G ++ R0) as [|g r] eqn:E.
      * right. destruct T as [-> _]. destruct G; [|discriminate]. reflexivity.
      * left. apply (top_two NSS kvs linked wf RT _ _ _ PK T). discriminate.
    + apply nth_error_Some. unfold at_node in AT. rewrite AT. discriminate.
Qed.

Lemma topn_fun r P n P' n' : topn r P n -> topn r P' n' -> P = P' /\ n = n'.
Proof. destruct r; cbn; intros H H'; intuition congruence. Qed.

Lemma base_le G : forall P n, pok (G ++ R0) -> topn (G ++ R0) P n -> base <= tn_pd n.
Proof.
  induction G as [|g G IH]; intros P n PK T.
  - destruct (topn_fun _ _ _ _ _ T T0) as [_ ->]. lia.
  - cbn [app] in PK, T. destruct (top_npath NSS kvs linked wf RT _ _ _ _ PK T) as [_ ->]. destruct PK as (PK & T' & _).
    specialize (IH _ _ PK T'). pose proof (top_wf NSS kvs linked wf RT _ _ _ PK T') as W. pose proof (w_pd _ W). lia.
Qed.

Definition sslot (ps ns pl : list nat) (G : list frame) (P : list tnode) (n : tnode) (pos : nat) : Prop :=
  nth_error ps (length G) = Some pos /\ nth_error ns (length G) = Some (nid (lvl G) P) /\ nth_error pl (length G) = Some (tn_d n + 1 - base).
Fixpoint sslots (ps ns pl : list nat) (G : list frame) : Prop :=
  match G with [] => True | f :: G => sslot ps ns pl G (f_P f) (f_n f) (sp G (f_P f) + length (f_A f)) /\ sslots ps ns pl G end.

Lemma sslots_set ps ns pl G i x : length G <= i -> sslots ps ns pl G -> sslots (set_nth ps i x) ns pl G.
Proof.
  induction G as [|f G IH]; intros L H; [exact I|]. cbn [length sslots] in *. destruct H as ((H1 & H2) & H). split; [|apply IH; auto; lia].
  split; auto. rewrite set_nth_other by lia. exact H1.
Qed.
Lemma sslots_setn ps ns pl G i x : length G <= i -> sslots ps ns pl G -> sslots ps (set_nth ns i x) pl G.
Proof.
  induction G as [|f G IH]; intros L H; [exact I|]. cbn [length sslots] in *. destruct H as ((H1 & H2 & H3) & H). split; [|apply IH; auto; lia].
  split; auto. split; auto. rewrite set_nth_other by lia. exact H2.
Qed.
Lemma sslots_setl ps ns pl G i x : length G <= i -> sslots ps ns pl G -> sslots ps ns (set_nth pl i x) G.
Proof.
  induction G as [|f G IH]; intros L H; [exact I|]. cbn [length sslots] in *. destruct H as ((H1 & H2 & H3) & H). split; [|apply IH; auto; lia].
  split; auto. split; auto. rewrite set_nth_other by lia. exact H3.
Qed.

Record slen (it : sparseIter) : Prop := {
  sl_pos : length (p_pos it) = length NSS - h; sl_node : length (p_node it) = length NSS - h; sl_plen : length (p_plen it) = length NSS - h }.

Lemma lvl_lt G P n : pok (G ++ R0) -> topn (G ++ R0) P n -> length G < length NSS - h.
Proof. intros PK T. destruct (sparse_at G P n PK T) as (S1 & S2 & _ & _ & _ & _ & _ & _ & L). rewrite app_length in L. lia. Qed.

Lemma s_append_spec it G P n pos k : pok (G ++ R0) -> topn (G ++ R0) P n -> slen it -> sslots (p_pos it) (p_node it) (p_plen it) G ->
  p_level it = length G -> p_key it = skipn base (npath n) ->
  exists ps ns pl, p_append ls it k pos (nid (lvl G) P) = Ok (p_setKey (p_setPos it ps ns pl) (skipn base (ndpath n) ++ [k])) /\
    length ps = length NSS - h /\ length ns = length NSS - h /\ length pl = length NSS - h /\ sslots ps ns pl G /\ sslot ps ns pl G P n pos.
Proof.
  intros PK T [L1 L2 L3] SL LV KE. destruct (sparse_at G P n PK T) as (S1 & S2 & EC & NI & ES & R & W & TW & LT).
  pose proof (top_wf NSS kvs linked wf RT _ _ _ PK T) as Wn. pose proof (base_le G P n PK T) as BL.
  assert (LG : length G < length NSS - h) by (eapply lvl_lt; eauto).
  unfold p_append, ls_prefixID. rewrite (lsr_dn _ _ _ _ _ _ _ R), NI. unfold sub_chk.
  destruct (Nat.leb_spec (length (concat (firstn h NSS))) (length (concat (firstn h NSS)) + length S1)); [|lia]. cbn [bind].
  replace (length (concat (firstn h NSS)) + length S1 - length (concat (firstn h NSS))) with (length S1) by lia.
  rewrite (s_prefix_at fp c _ _ _ _ _ _ _ R). cbn [bind]. rewrite LV. rewrite (upd_in _ _ _ ltac:(rewrite L1; exact LG)). cbn [bind].
  assert (B : (if Nat.eqb (length G) 0 then Ok 0 else idx (p_plen it) (length G - 1)) = Ok (tn_pd n - base)).
  { destruct G as [|g G].
    - destruct (topn_fun _ _ _ _ _ T T0) as [_ ->]. cbn [length Nat.eqb]. f_equal. lia.
    - cbn [app] in PK, T. destruct (top_npath NSS kvs linked wf RT _ _ _ _ PK T) as [_ ->]. cbn [length Nat.eqb]. cbn [sslots] in SL. destruct SL as ((_ & _ & SL) & _).
      replace (S (length G) - 1) with (length G) by lia. now apply idx_Ok. }
  rewrite B. cbn [bind]. rewrite (upd_in _ _ _ ltac:(rewrite L3; exact LG)). cbn [bind]. rewrite (upd_in _ _ _ ltac:(rewrite L2; exact LG)). cbn [bind].
  eexists _, _, _. split; [|split; [|split; [|split; [|split]]]].
  - rewrite KE. pose proof (nprefix_path n Wn) as NP. pose proof (npath_length n Wn) as NL.
    assert (EQ : skipn base (ndpath n) = skipn base (npath n) ++ nprefix n) by (rewrite <- NP, skipn_app, NL; replace (base - tn_pd n) with 0 by lia; reflexivity).
    rewrite EQ, <- app_assoc. reflexivity.
  - now rewrite set_nth_len.
  - now rewrite set_nth_len.
  - now rewrite set_nth_len.
  - apply sslots_set; [lia|]. apply sslots_setn; [lia|]. apply sslots_setl; [lia|]. exact SL.
  - split; [rewrite set_nth_same by lia; reflexivity|]. split; rewrite set_nth_same by lia; [now rewrite NI|]. f_equal.
    pose proof (nprefix_path n Wn) as NP. apply (f_equal (@length _)) in NP. rewrite app_length, (npath_length n Wn), (ndpath_length n Wn) in NP. lia.
Qed.

Record SS (it : sparseIter) (f : frame) (G : list frame) : Prop := {
  ss_level : p_level it = length G;
  ss_len : slen it;
  ss_slots : sslots (p_pos it) (p_node it) (p_plen it) (f :: G);
  ss_key : p_key it = skipn base (ndpath (f_n f)) ++ [flab f];
  ss_pok : pok (f :: G ++ R0);
  ss_start : p_startDepth it = base
}.
Inductive sstop (it : sparseIter) : list kv -> kv -> list kv -> Prop :=
| sstop_i f G e : SS it f G -> hasc (f_it f) = false -> i_grp (f_it f) = [e] -> p_valid it = true -> p_atTerm it = i_term (f_it f) ->
    sstop it (bef (f :: G)) e (aft (f :: G)).
Definition sstopL it pre := exists e post, sstop it pre e post.
Definition sstopR it post := exists pre e, sstop it pre e post.

Lemma sstop_kvs it pre e post : sstop it pre e post -> pre ++ e :: post = tn_kvs n0.
Proof.
  intros [f G e' S HC GE _ _]. pose proof (ss_pok _ _ _ S) as PK. pose proof (bef_aft_it kvs f (G ++ R0) PK) as E.
  pose proof (bef_aft kvs R0 K0 _ _ T0) as E0. change (f :: G ++ R0) with ((f :: G) ++ R0) in E. rewrite bef_app, aft_app, GE in E. rewrite <- E0 in E.
  rewrite <- app_assoc in E. apply app_inv_head in E. rewrite app_assoc, app_assoc in E. apply app_inv_tail in E. rewrite <- app_assoc in E. exact E.
Qed.

(** Where the values of a leaf are. *)
Lemma s_frame f G : pok (f :: G ++ R0) ->
  exists S1 S2, concat (skipn h NSS) = S1 ++ f_n f :: S2 /\ nid (lvl G) (f_P f) = length (concat (firstn h NSS)) + length S1 /\
    ls_rep fp c ls (length NSS) h (concat (firstn h NSS)) (S1 ++ f_n f :: S2) /\ Forall nwf (S1 ++ f_n f :: S2) /\
    sp G (f_P f) = length (flat_map items S1) /\ nwf (f_n f) /\ items (f_n f) = f_A f ++ f_it f :: f_B f /\ S1 = spre (length G) (f_P f) /\
    (2 <= length (items (f_n f)) \/ S1 = []).
Proof.
  intros (PK & T & EI). destruct (sparse_at G _ _ PK T) as (S1 & S2 & EC & NI & ES & R & W & TW & LT). exists S1, S2. 
  pose proof (top_wf NSS kvs linked wf RT _ _ _ PK T) as Wn. unfold sp. rewrite <- ES. split; [exact EC|]. split; [exact NI|]. split; [exact R|]. split; [exact W|]. auto 6.
Qed.

(** The last label of a node is not mistaken for a terminator. *)
Lemma end_term n A x B : nwf n -> items n = A ++ x :: B -> i_label x = labelTerminator -> (2 <= length (items n) \/ i_term x = false) ->
  negb (match B with [] => true | _ => false end) = i_term x.
Proof.
  intros W EI LX TW. assert (Ix : In x (items n)) by (rewrite EI; apply in_or_app; right; now left). destruct (i_term x) eqn:T.
  - destruct B as [|b B]; [|reflexivity]. destruct TW as [TW|]; [|discriminate]. destruct A as [|a A]; [rewrite EI in TW; cbn in TW; lia|].
    cbn [app] in EI. pose proof (tail_noterm n _ _ EI) as F. apply Forall_app in F as [_ F]. inversion F; subst. congruence.
  - destruct B as [|b B]; [reflexivity|]. destruct (items_order n A x (b :: B) W EI T) as [_ OB]. destruct (OB b (or_introl eq_refl)) as [_ Lb].
    assert (Ib : In b (items n)) by (rewrite EI; apply in_or_app; right; right; now left). pose proof (label_byte n b W Ib). unfold labelTerminator in LX. lia.
Qed.

Definition root_nt : Prop := forall x, items (mknode kvs 0) = [x] -> i_term x = false.
Hypothesis RNT : root_nt.

Lemma two_or_nt f r : pok (f :: r) -> 2 <= length (items (f_n f)) \/ i_term (f_it f) = false.
Proof.
  intros (PK & T & EI). destruct r as [|g r].
  - destruct T as [_ EN]. destruct (f_A f) as [|a A] eqn:EA; [|left; rewrite EI; cbn [app length]; rewrite app_length; cbn [length]; lia].
    destruct (f_B f) as [|b B] eqn:EB; [|left; rewrite EI; cbn [app length]; lia]. right. apply RNT. rewrite <- EN. exact EI.
  - left. apply (top_two NSS kvs linked wf RT _ _ _ PK T). discriminate.
Qed.

Lemma finish_spec it f G e : SS it f G -> p_atTerm it = false -> hasc (f_it f) = false -> i_grp (f_it f) = [e] ->
  exists it', p_finish ls it (flab f) (sp G (f_P f) + length (f_A f)) = Ok it' /\ sstop it' (bef (f :: G)) e (aft (f :: G)).
Proof.
  intros S AT HC GE. destruct (s_frame f G (ss_pok _ _ _ S)) as (S1 & S2 & EC & NI & R & W & ESP & Wn & EI & ES & TW).
  unfold p_finish. assert (TT : (if Nat.eqb (flab f) labelTerminator then e <- ls_isEndOfNode ls (sp G (f_P f) + length (f_A f)) ;; Ok (negb e) else Ok false) = Ok (i_term (f_it f))).
  { destruct (Nat.eqb_spec (flab f) labelTerminator) as [E|E].
    - rewrite ESP, (s_isEnd fp c _ _ _ _ _ _ _ R W _ _ _ EI). cbn [bind]. f_equal. apply (end_term (f_n f) (f_A f) (f_it f) (f_B f)); auto. apply (two_or_nt f (G ++ R0)). apply (ss_pok _ _ _ S).
    - destruct (i_term (f_it f)) eqn:T; auto. exfalso. apply E. apply (term_label (f_n f)); auto. rewrite EI. apply in_or_app. right. now left. }
  rewrite TT. cbn [bind]. eexists. split; [reflexivity|]. destruct S as [s1 [s2 s3 s4] s5 s6 s7 s8].
  destruct (i_term (f_it f)) eqn:T; apply (sstop_i _ f G e); auto; try (now rewrite T); try (constructor; auto; constructor; auto).
Qed.

(** Going down to the first or the last item of each node. *)
Lemma down_loop (left : bool) todo : forall it f G, SS it f G -> p_atTerm it = false -> hasc (f_it f) = true -> length NSS <= todo + lvl G ->
  exists it', p_down_loop (if left then ls_firstLabelPos ls else ls_lastLabelPos ls) todo ls it (sp G (f_P f) + length (f_A f)) = Ok it' /\
    (if left then sstopL it' (bef (f :: G)) else sstopR it' (aft (f :: G))).
Proof.
  induction todo as [|todo IH]; intros it f G S AT HC LT.
  - exfalso. destruct (sparse_at G (f_P f) (f_n f)) as (S1 & S2 & _ & _ & _ & _ & _ & _ & L); [apply (ss_pok _ _ _ S)|apply (ss_pok _ _ _ S)|]. lia.
  - pose proof (ss_pok _ _ _ S) as PK. destruct (s_frame f G PK) as (S1 & S2 & EC & NI & R & W & ESP & Wn & EI & ES & TW).
    set (n := mkchild (f_it f)). assert (T : topn ((f :: G) ++ R0) (kids f) n) by (repeat split; auto).
    assert (PK' : pok ((f :: G) ++ R0)) by exact PK.
    destruct (sparse_at (f :: G) _ _ PK' T) as (Z1 & Z2 & EC' & NI' & EZ & RZ & WZ & TWZ & LTZ).
    cbn [p_down_loop]. rewrite ESP, (s_childID fp c _ _ _ _ _ _ (f_n f) R _ _ _ EI HC). cbn [bind].
    assert (CID : 1 + length (filter hasc (flat_map items (concat (firstn h NSS) ++ S1) ++ f_A f)) = nid (lvl (f :: G)) (kids f)).
    { cbn [app length]. rewrite (top_nid NSS kvs linked RT (G ++ R0) f (kids f) n PK T).
      destruct (top_at NSS kvs linked RT (G ++ R0) (proj1 PK) _ _ (proj1 (proj2 PK))) as (Q & AT').
      destruct (at_sparse NSS h (lvl G) (f_P f) (f_n f) Q AT') as [_ AF]. { rewrite app_length. lia. }
      replace (lvl G - h) with (length G) in AF by (rewrite app_length; lia). rewrite AF, ES. unfold spre. now rewrite app_assoc. }
    rewrite CID, NI'.
    pose proof (top_wf NSS kvs linked wf RT _ _ _ PK' T) as Wc. pose proof (items_pos n Wc) as IP.
    assert (EX : exists A b B, items n = A ++ b :: B /\ (if left then A = [] else B = []) /\
       (if left then ls_firstLabelPos ls else ls_lastLabelPos ls) (length (concat (firstn h NSS)) + length Z1) = Ok (sp (f :: G) (kids f) + length A)).
    { unfold sp. rewrite <- EZ. destruct left.
      - destruct (items n) as [|b B] eqn:E; [cbn in IP; lia|]. exists [], b, B. split; auto. split; auto. cbn [length]. rewrite Nat.add_0_r. apply (s_firstLabelPos fp c _ _ _ _ _ _ _ RZ WZ).
      - destruct (last_split (items n)) as [E|(A & b & E)]; [rewrite E in IP; cbn in IP; lia|]. exists A, b, []. split; auto. split; auto.
        rewrite (s_lastLabelPos fp c _ _ _ _ _ _ _ RZ WZ). f_equal. f_equal. rewrite E, app_length. cbn [length]. lia. }
    destruct EX as (A & b & B & EB & AB & ->). cbn [bind]. 
    assert (ESP' : sp (f :: G) (kids f) = length (flat_map items Z1)) by (unfold sp; now rewrite <- EZ).
    rewrite ESP', (s_getLabel fp c _ _ _ _ _ _ n RZ A b B EB). cbn [bind]. rewrite (s_hasc fp c _ _ _ _ _ _ n RZ A b B EB). cbn [bind]. rewrite <- ESP', <- NI'.
    destruct (top_npath NSS kvs linked wf RT _ _ _ _ PK' T) as [NP PDN].
    destruct (s_append_spec (p_setLevel it (Datatypes.S (p_level it))) (f :: G) (kids f) n (sp (f :: G) (kids f) + length A) (i_label b)) as (ps & ns & pl & E & L1 & L2 & L3 & SL & TS); auto.
    { destruct (ss_len _ _ _ S). constructor; auto. } { apply (ss_slots _ _ _ S). } { cbn [p_setLevel p_level length]. now rewrite (ss_level _ _ _ S). }
    { cbn [p_setLevel p_key]. rewrite (ss_key _ _ _ S), NP, skipn_app. f_equal.
      pose proof (base_le G _ _ (proj1 PK) (proj1 (proj2 PK))). pose proof (ndpath_length _ Wn). pose proof (w_pd _ Wn). replace (base - length (ndpath (f_n f))) with 0 by lia. reflexivity. }
    rewrite E. cbn [bind]. set (it2 := p_setKey _ _). set (f2 := mkF (kids f) n A b B).
    assert (S2' : SS it2 f2 (f :: G)).
    { constructor; cbn [it2 f2 p_setKey p_setPos p_setLevel p_level p_pos p_node p_plen p_key f_it f_n p_startDepth]; auto.
      - cbn [length]. now rewrite (ss_level _ _ _ S).
      - constructor; auto.
      - cbn [sslots f_P f_n f_A]. split; auto.
      - cbn [app SurfIterPath.pok f_P f_n f_A f_it f_B]. split; auto.
      - apply (ss_start _ _ _ S). }
    assert (BA : if left then bef (f2 :: f :: G) = bef (f :: G) else aft (f2 :: f :: G) = aft (f :: G)).
    { destruct left; cbn [bef aft f2 f_A f_B]; rewrite AB; cbn [map concat]; [apply app_nil_r|reflexivity]. }
    destruct (hasc b) eqn:HB; cbn [negb].
    + destruct (IH it2 f2 (f :: G)) as (it' & E' & RES); auto. { cbn [app length] in *. lia. }
      exists it'. split; [exact E'|]. destruct left; rewrite <- BA; exact RES.
    + assert (Ib : In b (items n)) by (rewrite EB; apply in_or_app; right; now left). destruct (item_leaf n b Ib HB) as (e & GE).
      destruct (finish_spec it2 f2 (f :: G) e S2') as (it' & E' & ST); auto. exists it'. split; [exact E'|].
      destruct left; rewrite <- BA; eexists _, _; exact ST.
Qed.

Lemma p_move_eq cp it : p_key it <> [] -> p_move cp ls it = (pos <- idx (p_pos it) (p_level it) ;; label <- getLabel (ls_label ls) pos ;;
  h <- rv_isSet (ls_hasChild ls) pos ;; if negb h then p_finish ls it label pos else p_down_loop cp (ls_sparseLevels ls - p_level it) ls it pos).
Proof. intros H. unfold p_move. destruct (p_key it); [congruence|]. reflexivity. Qed.

Lemma move_at (left : bool) it f G : SS it f G -> p_atTerm it = false ->
  exists it', p_move (if left then ls_firstLabelPos ls else ls_lastLabelPos ls) ls it = Ok it' /\
    (if left then sstopL it' (bef (f :: G)) else sstopR it' (aft (f :: G))).
Proof.
  intros S AT. rewrite p_move_eq. 2:{ rewrite (ss_key _ _ _ S). intros E. apply (f_equal (@length _)) in E. rewrite app_length in E. cbn in E. lia. }
  destruct (s_frame f G (ss_pok _ _ _ S)) as (S1 & S2 & EC & NI & R & W & ESP & Wn & EI & ES & TW).
  pose proof (ss_slots _ _ _ S) as ((X1 & X2 & X3) & _). rewrite (ss_level _ _ _ S), (proj2 (idx_Ok _ _ _) X1). cbn [bind].
  rewrite ESP, (s_getLabel fp c _ _ _ _ _ _ _ R _ _ _ EI). cbn [bind]. rewrite (s_hasc fp c _ _ _ _ _ _ _ R _ _ _ EI). cbn [bind]. rewrite <- ESP.
  destruct (hasc (f_it f)) eqn:HC; cbn [negb].
  - apply down_loop; auto. unfold ls_sparseLevels. rewrite (lsr_height _ _ _ _ _ _ _ R), (lsr_start _ _ _ _ _ _ _ R).
    pose proof (lvl_lt G _ _ (proj1 (ss_pok _ _ _ S)) (proj1 (proj2 (ss_pok _ _ _ S)))). rewrite app_length. lia.
  - assert (Ib : In (f_it f) (items (f_n f))) by (rewrite EI; apply in_or_app; right; now left). destruct (item_leaf _ _ Ib HC) as (e & GE).
    destruct (finish_spec it f G e S AT HC GE) as (it' & E' & ST). exists it'. split; [exact E'|]. destruct left; eexists _, _; exact ST.
Qed.

(** Entering the sparse part. *)
Record sidle (it : sparseIter) : Prop := {
  si_len : slen it; si_valid : p_valid it = false; si_term : p_atTerm it = false; si_level : p_level it = 0; si_key : p_key it = [] }.

Lemma move_enter (left : bool) it : sidle it ->
  exists it', p_move (if left then ls_firstLabelPos ls else ls_lastLabelPos ls) ls (p_setStart it (nid h PZ) base) = Ok it' /\
    (if left then sstopL it' [] else sstopR it' []).
Proof.
  intros I. destruct (sparse_at [] PZ n0 K0 T0) as (S1 & S2 & EC & NI & ES & R & W & TW & LT). cbn [app] in NI, LT. rewrite LH in NI.
  pose proof (top_wf NSS kvs linked wf RT _ _ _ K0 T0) as Wn. pose proof (items_pos n0 Wn) as IP.
  assert (EX : exists A b B, items n0 = A ++ b :: B /\ (if left then A = [] else B = []) /\
     (if left then ls_firstLabelPos ls else ls_lastLabelPos ls) (nid h PZ) = Ok (sp [] PZ + length A)).
  { unfold sp. cbn [length] in ES |- *. rewrite <- ES, NI. destruct left.
    - destruct (items n0) as [|b B] eqn:E; [cbn in IP; lia|]. exists [], b, B. split; auto. split; auto. cbn [length]. rewrite Nat.add_0_r. apply (s_firstLabelPos fp c _ _ _ _ _ _ _ R W).
    - destruct (last_split (items n0)) as [E|(A & b & E)]; [rewrite E in IP; cbn in IP; lia|]. exists A, b, []. split; auto. split; auto.
      rewrite (s_lastLabelPos fp c _ _ _ _ _ _ _ R W). f_equal. f_equal. rewrite E, app_length. cbn [length]. lia. }
  destruct EX as (A & b & B & EB & AB & EP).
  assert (ESP : sp [] PZ = length (flat_map items S1)) by (unfold sp; cbn [length] in ES |- *; now rewrite <- ES).
  destruct (s_append_spec (p_setStart it (nid h PZ) base) [] PZ n0 (sp [] PZ + length A) (i_label b)) as (ps & ns & pl & E & L1 & L2 & L3 & SL & TS); auto.
  { destruct (si_len _ I). constructor; auto. } { exact Logic.I. } { apply (si_level _ I). }
  { cbn [p_setStart p_key]. rewrite (si_key _ I). pose proof (npath_length _ Wn) as NL. rewrite <- NL, skipn_all. reflexivity. }
  set (it2 := p_setKey (p_setPos (p_setStart it (nid h PZ) base) ps ns pl) (skipn base (ndpath n0) ++ [i_label b])) in *. set (f2 := mkF PZ n0 A b B).
  assert (S2' : SS it2 f2 []).
  { constructor; cbn [it2 f2 p_setKey p_setPos p_setStart p_level p_pos p_node p_plen p_key f_it f_n p_startDepth]; auto.
    - apply (si_level _ I).
    - constructor; auto.
    - cbn [sslots f_P f_n f_A]. split; auto.
    - cbn [app SurfIterPath.pok f_P f_n f_A f_it f_B]. split; auto. }
  destruct (move_at left it2 f2 [] S2') as (it' & E' & RES). { apply (si_term _ I). }
  exists it'. split.
  - rewrite <- E'. unfold p_move at 1. cbn [p_setStart p_key p_startNode]. rewrite (si_key _ I). fold (p_setStart it (nid h PZ) base). rewrite EP. cbn [bind].
    rewrite ESP, (s_getLabel fp c _ _ _ _ _ _ _ R _ _ _ EB). cbn [bind]. rewrite <- ESP. cbn [app] in E. rewrite LH in E. rewrite E. cbn [bind]. fold it2.
    rewrite p_move_eq; [reflexivity|]. cbn [it2 p_setKey p_key]. intros X. apply (f_equal (@length _)) in X. rewrite app_length in X. cbn in X. lia.
  - destruct left; cbn [bef aft f2 f_A f_B] in RES; rewrite AB in RES; exact RES.
Qed.

(** Moving to a neighbouring item of the same node. *)
Lemma setAt_spec it f G A x B : pok (f :: G ++ R0) -> slen it -> sslots (p_pos it) (p_node it) (p_plen it) (f :: G) ->
  is_prefix (skipn base (ndpath (f_n f))) (p_key it) -> p_startDepth it = base -> items (f_n f) = A ++ x :: B ->
  exists it', p_setAt ls (p_setLevel it (length G)) (sp G (f_P f) + length A) = Ok it' /\ SS it' (mkF (f_P f) (f_n f) A x B) G /\ p_atTerm it' = p_atTerm it.
Proof.
  intros PK [L1 L2 L3] SL KP SD EI2. destruct (s_frame f G PK) as (S1 & S2 & EC & NI & R & W & ESP & Wn & EI & ES & TW).
  destruct SL as ((X1 & X2 & X3) & SL). pose proof (base_le G _ _ (proj1 PK) (proj1 (proj2 PK))) as BL. pose proof (w_pd _ Wn) as PD.
  pose proof (lvl_lt G _ _ (proj1 PK) (proj1 (proj2 PK))) as LG.
  unfold p_setAt. cbn [p_setLevel p_plen p_level p_key p_pos]. rewrite (proj2 (idx_Ok _ _ _) X3). cbn [bind]. unfold sub_chk.
  destruct (Nat.leb_spec 1 (tn_d (f_n f) + 1 - base)); [|lia]. cbn [bind].
  replace (tn_d (f_n f) + 1 - base - 1) with (length (skipn base (ndpath (f_n f)))) by (rewrite skipn_length, (ndpath_length _ Wn); lia).
  rewrite (slice_prefix _ _ KP). cbn [bind]. rewrite ESP, (s_getLabel fp c _ _ _ _ _ _ _ R _ _ _ EI2). cbn [bind].
  rewrite (upd_in _ _ _ ltac:(rewrite L1; exact LG)). cbn [bind]. eexists. split; [reflexivity|]. split; [|reflexivity].
  constructor; cbn [p_setKey p_setPos p_setLevel p_level p_pos p_node p_plen p_key f_it f_n p_startDepth]; auto.
  - constructor; cbn [p_setKey p_setPos p_setLevel p_pos p_node p_plen]; rewrite ?set_nth_len; auto.
  - cbn [sslots f_P f_n f_A]. split; [|apply sslots_set; auto]. split; [rewrite set_nth_same by lia; now rewrite ESP|]. auto.
  - destruct PK as (PK & T & _). cbn [app SurfIterPath.pok f_P f_n f_A f_it f_B]. auto.
Qed.

Lemma sbef_ne f G A x : pok (f :: G ++ R0) -> f_A f = A ++ [x] -> bef (f :: G) <> [].
Proof.
  intros PK EA. cbn [bef]. rewrite EA, map_app, concat_app. cbn [map concat].
  assert (Ix : In x (items (f_n f))) by (destruct PK as (_ & _ & ->); rewrite EA; apply in_or_app; left; apply in_or_app; right; now left).
  pose proof (item_grp_ne _ x Ix) as NE. intros HH. apply app_eq_nil in HH as [_ HH]. apply app_eq_nil in HH as [_ HH]. rewrite app_nil_r in HH. congruence.
Qed.

Lemma kids_grp f g : f_n f = mkchild (f_it g) -> items (f_n f) = f_A f ++ f_it f :: f_B f ->
  concat (map i_grp (f_A f)) ++ i_grp (f_it f) ++ concat (map i_grp (f_B f)) = i_grp (f_it g).
Proof.
  intros EN EI. pose proof (items_kvs (tn_d (f_n f)) (tn_kvs (f_n f))) as K. fold (items (f_n f)) in K. rewrite EI in K. rewrite map_app, concat_app in K. cbn [map concat] in K.
  rewrite K, EN. reflexivity.
Qed.

Lemma s_next_climb G : forall it f, pok (f :: G ++ R0) -> slen it -> sslots (p_pos it) (p_node it) (p_plen it) (f :: G) ->
  is_prefix (skipn base (ndpath (f_n f))) (p_key it) -> p_startDepth it = base -> p_atTerm it = false ->
  exists it', p_next_climb (length G) ls it = Ok it' /\
    ((aft (f :: G) = [] /\ sidle it') \/ (aft (f :: G) <> [] /\ sstopL it' (bef (f :: G) ++ i_grp (f_it f)))).
Proof.
  induction G as [|g G IH]; intros it f PK SLn SL KP SD AT;
    destruct (s_frame f _ PK) as (S1 & S2 & EC & NI & R & W & ESP & Wn & EI & ES & TW); pose proof SL as ((X1 & X2 & X3) & SL').
  - cbn [length p_next_climb]. cbn [length] in X1, X2. rewrite (proj2 (idx_Ok _ _ _) X1). cbn [bind]. rewrite (proj2 (idx_Ok _ _ _) X2). cbn [bind].
    rewrite ESP, (s_up fp c _ _ _ _ _ _ _ R W _ _ _ EI). cbn [bind]. destruct (f_B f) as [|b B] eqn:EB.
    + eexists. split; [reflexivity|]. left. cbn [aft]. rewrite EB. split; [reflexivity|]. destruct SLn. constructor; auto. constructor; auto.
    + rewrite <- ESP. replace (sp [] (f_P f) + length (f_A f) + 1) with (sp [] (f_P f) + length (f_A f ++ [f_it f])) by (rewrite app_length; cbn [length]; lia).
      destruct (setAt_spec it f [] (f_A f ++ [f_it f]) b B PK SLn SL KP SD) as (it2 & E2 & S2' & AT2); [rewrite <- app_assoc; exact EI|]. cbn [length] in E2. rewrite E2. cbn [bind].
      destruct (move_at true it2 _ _ S2') as (it3 & E3 & ST); [now rewrite AT2|]. exists it3. split; [exact E3|]. right. split.
      * cbn [aft]. rewrite EB. cbn [map concat]. assert (Ib : In b (items (f_n f))) by (rewrite EI; apply in_or_app; right; right; now left).
        pose proof (item_grp_ne _ b Ib). destruct (i_grp b); [congruence|discriminate].
      * replace (bef [f] ++ i_grp (f_it f)) with (bef [mkF (f_P f) (f_n f) (f_A f ++ [f_it f]) b B]); [exact ST|].
        cbn [bef f_A app]. rewrite map_app, concat_app. cbn [map concat]. now rewrite app_nil_r.
  - cbn [length p_next_climb]. cbn [length] in X1, X2. rewrite (proj2 (idx_Ok _ _ _) X1). cbn [bind]. rewrite (proj2 (idx_Ok _ _ _) X2). cbn [bind].
    rewrite ESP, (s_up fp c _ _ _ _ _ _ _ R W _ _ _ EI). cbn [bind]. destruct (f_B f) as [|b B] eqn:EB.
    + pose proof PK as (PK1 & T1 & _). cbn [app] in PK1, T1. pose proof T1 as (HC & EN & EP).
      destruct (top_npath NSS kvs linked wf RT _ _ _ _ PK1 T1) as [NP _].
      destruct (s_frame g _ PK1) as (_ & _ & _ & _ & _ & _ & _ & Wg & _). pose proof (base_le G _ _ (proj1 PK1) (proj1 (proj2 PK1))) as BL.
      destruct (IH it g) as (it' & E & RES); auto.
      { eapply is_prefix_trans; [|exact KP]. apply is_prefix_skipn. { rewrite (ndpath_length _ Wg). pose proof (w_pd _ Wg). lia. }
        eapply is_prefix_trans; [|apply (npath_ndpath _ Wn)]. rewrite NP. now exists [flab g]. }
      exists it'. split; [exact E|].
      assert (A1 : aft (f :: g :: G) = aft (g :: G)) by (change (aft (f :: g :: G)) with (concat (map i_grp (f_B f)) ++ aft (g :: G)); now rewrite EB).
      assert (B1 : bef (f :: g :: G) ++ i_grp (f_it f) = bef (g :: G) ++ i_grp (f_it g)).
      { change (bef (f :: g :: G)) with (bef (g :: G) ++ concat (map i_grp (f_A f))). rewrite <- app_assoc. f_equal.
        rewrite <- (kids_grp f g EN ltac:(rewrite EB; exact EI)), EB. cbn [map concat]. now rewrite app_nil_r. }
      rewrite A1, B1. exact RES.
    + rewrite <- ESP. replace (sp (g :: G) (f_P f) + length (f_A f) + 1) with (sp (g :: G) (f_P f) + length (f_A f ++ [f_it f])) by (rewrite app_length; cbn [length]; lia).
      destruct (setAt_spec it f (g :: G) (f_A f ++ [f_it f]) b B PK SLn SL KP SD) as (it2 & E2 & S2' & AT2); [rewrite <- app_assoc; exact EI|]. cbn [length] in E2. rewrite E2. cbn [bind].
      destruct (move_at true it2 _ _ S2') as (it3 & E3 & ST); [now rewrite AT2|]. exists it3. split; [exact E3|]. right. split.
      * cbn [aft]. rewrite EB. cbn [map concat]. assert (Ib : In b (items (f_n f))) by (rewrite EI; apply in_or_app; right; right; now left).
        pose proof (item_grp_ne _ b Ib). destruct (i_grp b); [congruence|discriminate].
      * replace (bef (f :: g :: G) ++ i_grp (f_it f)) with (bef (mkF (f_P f) (f_n f) (f_A f ++ [f_it f]) b B :: g :: G)); [exact ST|].
        change (bef (g :: G) ++ concat (map i_grp (f_A f ++ [f_it f])) = (bef (g :: G) ++ concat (map i_grp (f_A f))) ++ i_grp (f_it f)).
        rewrite map_app, concat_app. cbn [map concat]. now rewrite app_nil_r, app_assoc.
Qed.

Lemma s_next_spec it f G : SS it f G ->
  exists it', p_next ls it = Ok it' /\
    ((aft (f :: G) = [] /\ sidle it') \/ (aft (f :: G) <> [] /\ sstopL it' (bef (f :: G) ++ i_grp (f_it f)))).
Proof.
  intros S. unfold p_next. rewrite (ss_level _ _ _ S). apply s_next_climb; cbn [p_setAtTerm p_pos p_node p_plen p_key p_startDepth p_atTerm]; auto; try apply S.
  - destruct (ss_len _ _ _ S). constructor; auto.
  - rewrite (ss_key _ _ _ S). now exists [flab f].
Qed.

Lemma s_prev_climb G : forall it f, pok (f :: G ++ R0) -> slen it -> sslots (p_pos it) (p_node it) (p_plen it) (f :: G) ->
  is_prefix (skipn base (ndpath (f_n f))) (p_key it) -> p_startDepth it = base -> p_atTerm it = false ->
  exists it', p_prev_climb (length G) ls it = Ok it' /\
    ((bef (f :: G) = [] /\ sidle it') \/ (bef (f :: G) <> [] /\ sstopR it' (i_grp (f_it f) ++ aft (f :: G)))).
Proof.
  induction G as [|g G IH]; intros it f PK SLn SL KP SD AT;
    destruct (s_frame f _ PK) as (S1 & S2 & EC & NI & R & W & ESP & Wn & EI & ES & TW); pose proof SL as ((X1 & X2 & X3) & SL').
  - cbn [length p_prev_climb]. cbn [length] in X1, X2. rewrite (proj2 (idx_Ok _ _ _) X1). cbn [bind]. rewrite (proj2 (idx_Ok _ _ _) X2). cbn [bind].
    rewrite ESP, (s_isset fp c _ _ _ _ _ _ _ R W) by (rewrite EI, app_length; cbn [length]; lia). cbn [bind]. rewrite <- ESP.
    destruct (last_split (f_A f)) as [EA|(A & x & EA)].
    + rewrite EA. cbn [length Nat.eqb]. eexists. split; [reflexivity|]. left. cbn [bef]. rewrite EA. split; [reflexivity|]. destruct SLn. constructor; auto. constructor; auto.
    + assert (LA : length (f_A f) = Datatypes.S (length A)) by (rewrite EA, app_length; cbn [length]; lia). rewrite LA. cbn [Nat.eqb]. unfold sub_chk.
      destruct (Nat.leb_spec 1 (sp [] (f_P f) + Datatypes.S (length A))); [|lia]. cbn [bind].
      replace (sp [] (f_P f) + Datatypes.S (length A) - 1) with (sp [] (f_P f) + length A) by lia.
      destruct (setAt_spec it f [] A x (f_it f :: f_B f) PK SLn SL KP SD) as (it2 & E2 & S2' & AT2); [rewrite EI, EA, <- app_assoc; reflexivity|]. cbn [length] in E2. rewrite E2. cbn [bind].
      destruct (move_at false it2 _ _ S2') as (it3 & E3 & ST); [now rewrite AT2|]. exists it3. split; [exact E3|]. right. split; [eapply sbef_ne; eauto|].
      cbn [aft f_B map concat] in ST |- *. rewrite <- app_assoc in ST. exact ST.
  - cbn [length p_prev_climb]. cbn [length] in X1, X2. rewrite (proj2 (idx_Ok _ _ _) X1). cbn [bind]. rewrite (proj2 (idx_Ok _ _ _) X2). cbn [bind].
    rewrite ESP, (s_isset fp c _ _ _ _ _ _ _ R W) by (rewrite EI, app_length; cbn [length]; lia). cbn [bind]. rewrite <- ESP.
    destruct (last_split (f_A f)) as [EA|(A & x & EA)].
    + rewrite EA. cbn [length Nat.eqb].
      pose proof PK as (PK1 & T1 & _). cbn [app] in PK1, T1. pose proof T1 as (HC & EN & EP).
      destruct (top_npath NSS kvs linked wf RT _ _ _ _ PK1 T1) as [NP _].
      destruct (s_frame g _ PK1) as (_ & _ & _ & _ & _ & _ & _ & Wg & _). pose proof (base_le G _ _ (proj1 PK1) (proj1 (proj2 PK1))) as BL.
      destruct (IH it g) as (it' & E & RES); auto.
      { eapply is_prefix_trans; [|exact KP]. apply is_prefix_skipn. { rewrite (ndpath_length _ Wg). pose proof (w_pd _ Wg). lia. }
        eapply is_prefix_trans; [|apply (npath_ndpath _ Wn)]. rewrite NP. now exists [flab g]. }
      exists it'. split; [exact E|].
      assert (B1 : bef (f :: g :: G) = bef (g :: G)) by (change (bef (f :: g :: G)) with (bef (g :: G) ++ concat (map i_grp (f_A f))); rewrite EA; apply app_nil_r).
      assert (A1 : i_grp (f_it f) ++ aft (f :: g :: G) = i_grp (f_it g) ++ aft (g :: G)).
      { change (aft (f :: g :: G)) with (concat (map i_grp (f_B f)) ++ aft (g :: G)). rewrite app_assoc. f_equal.
        rewrite <- (kids_grp f g EN EI), EA. reflexivity. }
      rewrite A1, B1. exact RES.
    + assert (LA : length (f_A f) = Datatypes.S (length A)) by (rewrite EA, app_length; cbn [length]; lia). rewrite LA. cbn [Nat.eqb]. unfold sub_chk.
      destruct (Nat.leb_spec 1 (sp (g :: G) (f_P f) + Datatypes.S (length A))); [|lia]. cbn [bind].
      replace (sp (g :: G) (f_P f) + Datatypes.S (length A) - 1) with (sp (g :: G) (f_P f) + length A) by lia.
      destruct (setAt_spec it f (g :: G) A x (f_it f :: f_B f) PK SLn SL KP SD) as (it2 & E2 & S2' & AT2); [rewrite EI, EA, <- app_assoc; reflexivity|]. cbn [length] in E2. rewrite E2. cbn [bind].
      destruct (move_at false it2 _ _ S2') as (it3 & E3 & ST); [now rewrite AT2|]. exists it3. split; [exact E3|]. right. split; [eapply sbef_ne; eauto|].
      cbn [aft f_B map concat] in ST |- *. rewrite <- app_assoc in ST. exact ST.
Qed.

(** At position 0 of the sparse part Prev leaves a stale key behind; that position is the
    first item of the first node of its level. *)
Lemma s_prev_spec it f G : SS it f G ->
  exists it', p_prev ls it = Ok it' /\
    ((bef (f :: G) = [] /\ slen it' /\ p_valid it' = false /\ p_atTerm it' = false /\ (sidle it' \/ (PZ = [] /\ exists f1, SS it' f1 [] /\ f_A f1 = []))) \/
     (bef (f :: G) <> [] /\ sstopR it' (i_grp (f_it f) ++ aft (f :: G)))).
Proof.
  intros S. unfold p_prev. pose proof (ss_slots _ _ _ S) as ((X1 & X2 & _) & _). cbn [p_setAtTerm p_pos p_node p_level]. rewrite (ss_level _ _ _ S).
  rewrite (proj2 (idx_Ok _ _ _) X1). cbn [bind]. rewrite (proj2 (idx_Ok _ _ _) X2). cbn [bind].
  destruct (Nat.eqb_spec (sp G (f_P f) + length (f_A f)) 0) as [E0|E0].
  - eexists. split; [reflexivity|]. left. pose proof (ss_pok _ _ _ S) as PK. assert (EA : f_A f = []) by (destruct (f_A f); [auto|cbn [length] in E0; lia]).
    assert (SP0 : spre (length G) (f_P f) = []).
    { unfold sp in E0. destruct (spre (length G) (f_P f)) as [|m L] eqn:E; auto. exfalso.
      destruct (s_frame f G PK) as (S1 & S2 & EC & NI & R & W & ESP & Wn & EI & ES & TW). rewrite E in ES. rewrite ES in W. inversion W; subst.
      pose proof (items_pos m H1). cbn [flat_map] in E0. rewrite app_length in E0. lia. }
    assert (G = []).
    { destruct G as [|g G]; auto. exfalso. unfold spre in SP0. cbn [length] in SP0.
      pose proof (lvl_lt (g :: G) _ _ (proj1 PK) (proj1 (proj2 PK))) as LG. cbn [length] in LG.
      destruct (sparse_at [] PZ n0 K0 T0) as (S1 & S2 & EC & NI & ES & R & W & TW & LT).
      pose proof (top_at NSS kvs linked RT R0 K0 _ _ T0) as (Q & AT). unfold at_node in AT. rewrite LH in AT.
      assert (SK : skipn h NSS = (PZ ++ n0 :: Q) :: skipn (Datatypes.S h) NSS). { clear -AT. revert AT. generalize (PZ ++ n0 :: Q). revert NSS. induction h as [|k IH]; intros [|a l] z H; try discriminate; cbn in H |- *; [congruence|]. now apply IH. }
      rewrite SK in SP0. cbn [firstn concat] in SP0. destruct PZ; discriminate. }
    subst G. cbn [bef app]. rewrite EA. cbn [map concat]. destruct (ss_len _ _ _ S). repeat split; auto.
    right. split; [pose proof PK as (_ & T & _); destruct (topn_fun _ _ _ _ _ T T0) as [<- _]; exact SP0|].
    exists f. split; [|exact EA]. destruct S as [s1 [s2 s3 s4] s5 s6 s7 s8]. constructor; auto. constructor; auto.
  - destruct (s_prev_climb G (p_setAtTerm it false) f) as (it' & E & RES); cbn [p_setAtTerm p_pos p_node p_plen p_key p_startDepth p_atTerm]; auto; try apply S.
    + destruct (ss_len _ _ _ S). constructor; auto.
    + rewrite (ss_key _ _ _ S). now exists [flab f].
    + exists it'. split; [exact E|]. destruct RES as [(B0 & I)|RES]; [left|now right]. split; auto. pose proof I as [I1 I2 I3 I4 I5]. auto 6.
Qed.

(** What the iterator shows. *)
Hypothesis LO : Forall (leaf_ok c) (leaves (concat NSS)).
Hypothesis INC : increasing (map fst kvs).
Hypothesis NI : Forall (ninv kvs) (concat NSS).

Lemma sshow it pre e post : sstop it pre e post ->
  (exists k, p_Key it = Ok k /\ npath n0 ++ k = dprefix (map fst kvs) (fst e)) /\ p_Value ls it = Ok (firstn (c_valueSize c) (snd e)).
Proof.
  intros [f G e' S HC GE V AT]. pose proof (ss_pok _ _ _ S) as PK. destruct (s_frame f G PK) as (S1 & S2 & EC & NI' & R & W & ESP & Wn & EI & ES & TW). split.
  - rewrite (leaf_key fp c NSS h s kvs SR RT INC NI f (G ++ R0) e' PK (f_it f) (frame_in kvs f _ PK) GE).
    pose proof (base_le G _ _ (proj1 PK) (proj1 (proj2 PK))) as BL. pose proof (w_pd _ Wn) as PD. pose proof (ndpath_length _ Wn) as NL.
    assert (W0 : nwf n0) by apply (top_wf NSS kvs linked wf RT _ _ _ K0 T0).
    assert (PX : npath n0 ++ skipn base (ndpath (f_n f)) = ndpath (f_n f)).
    { assert (IP : is_prefix (npath n0) (ndpath (f_n f))).
      { eapply is_prefix_trans; [|apply (npath_ndpath _ Wn)]. clear -PK K0 T0 SR RT. destruct PK as (PK & T & _). revert PK T. generalize (f_n f) (f_P f). 
        induction G as [|g G IH]; intros n P PK T.
        - destruct (topn_fun _ _ _ _ _ T T0) as [_ ->]. apply is_prefix_refl.
        - cbn [app] in *. destruct (top_npath NSS kvs linked wf RT _ _ _ _ PK T) as [NP _]. rewrite NP. destruct PK as (PK & T' & _).
          pose proof (top_wf NSS kvs linked wf RT _ _ _ PK T') as W. eapply is_prefix_trans; [apply (IH _ _ PK T')|].
          eapply is_prefix_trans; [apply (npath_ndpath _ W)|]. now exists [flab g]. }
      destruct IP as (x & E). rewrite E, skipn_app, <- (npath_length _ W0), skipn_all, Nat.sub_diag. reflexivity. }
    unfold p_Key, ikey. rewrite AT, (ss_key _ _ _ S). destruct (i_term (f_it f)).
    + unfold sub_chk. rewrite app_length. cbn [length]. destruct (Nat.leb_spec 1 (length (skipn base (ndpath (f_n f))) + 1)); [|lia]. cbn [bind].
      replace (length (skipn base (ndpath (f_n f))) + 1 - 1) with (length (skipn base (ndpath (f_n f)))) by lia. eexists. split; [apply slice_prefix; now exists [flab f]|]. exact PX.
    + eexists. split; [reflexivity|]. rewrite app_assoc, PX. reflexivity.
  - unfold p_Value. rewrite (ss_level _ _ _ S). pose proof (ss_slots _ _ _ S) as ((X1 & _) & _). rewrite (proj2 (idx_Ok _ _ _) X1). cbn [bind].
    rewrite ESP, (s_suffixPos fp c _ _ _ _ _ _ _ R _ _ _ EI HC). cbn [bind].
    pose proof (lsr_val _ _ _ _ _ _ _ R) as [V1 V2]. unfold valueVector_get. rewrite V1, V2.
    rewrite (slice_flat (ivalue c) (c_valueSize c) _ _ (f_it f)).
    + unfold ivalue, i_kv. now rewrite GE.
    + intros y Hy. assert (Iy : In y (leaves (concat NSS))).
      { rewrite <- EC in Hy. unfold leaves in *. rewrite <- (firstn_skipn h NSS), concat_app, flat_map_app, filter_app. apply in_or_app. now right. }
      rewrite Forall_forall in LO. now apply LO.
    + now apply (leaves_split S1 S2 (f_n f) (f_A f) (f_it f) (f_B f)).
Qed.
End SWalk.
