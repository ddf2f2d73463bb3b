(** * Iteration over any filter with a dense level, and what Prev does at every key. *)
From Coq Require Import Sorted.
From Verif Require Import Base BitsModel BitsFacts VecModel VecProofs VecProofs2 SurfModel SurfTrie SurfSuffix SurfBuild SurfDense SurfEnc SurfBuildTop SurfGet SurfGet2 SurfSpec SurfWalk SurfTop SurfSuffix3 SurfIter SurfIterSpec SurfIterPath SurfIterDense SurfIterSparse SurfIterTop SurfIterMain SurfIterSeek SurfIterSeek2 SurfIterSeek3 SurfIterCursor SurfIterPrev SurfIterPrev2 SurfPrevSpec.

Lemma prefix_term kvs : nwf (mknode kvs 0) -> prefix_of_all (map fst kvs) -> exists t B, items (mknode kvs 0) = t :: B /\ i_term t = true.
Proof.
  intros W (L & k & Hk & PA). rewrite map_length in L. destruct (in_map_fst _ _ Hk) as (v & Hv).
  destruct (node_term (mknode kvs 0) (k, v) W L Hv) as (t & B & E & T & _); [|eauto]. intros e' H'. apply PA. now apply in_map.
Qed.
Lemma term_prefix kvs t B : nwf (mknode kvs 0) -> items (mknode kvs 0) = t :: B -> i_term t = true -> prefix_of_all (map fst kvs).
Proof.
  intros W E T. destruct (item_term _ t W ltac:(rewrite E; now left) T) as (e & r & EK & G & FE & NE & _). change (tn_kvs (mknode kvs 0)) with kvs in EK. split.
  - rewrite map_length, EK. destruct r; [congruence|cbn; lia].
  - exists (fst e). split; [rewrite EK; now left|]. intros k' H. destruct (in_map_fst _ _ H) as (v & Hv). rewrite FE. apply (ndpath_prefix (mknode kvs 0) (k', v) W Hv).
Qed.
Lemma first_path kvs r : nwf (mknode kvs 0) -> forall f, pok kvs (f :: r) -> i_term (f_it f) = false -> bef (f :: r) = [] -> exists x B, items (mknode kvs 0) = x :: B /\ i_term x = false.
Proof.
  intros W. induction r as [|g r IH]; intros f PK NT B0; pose proof PK as (PK1 & T1 & EI); 
    apply app_eq_nil in B0 as [B0 B1].
  - destruct T1 as [_ EN]. rewrite EN in EI. destruct (f_A f) as [|a A]; [eauto|]. exfalso. cbn [map concat] in B1. apply app_eq_nil in B1 as [B1 _]. revert B1. apply (item_grp_ne (mknode kvs 0)). rewrite EI. now left.
  - destruct T1 as (HC & _). apply (IH g); auto. apply (item_hasc_noterm (f_n g)); auto. eapply frame_in; eauto.
Qed.

Section Top.
Variable fp : bytes -> N.
Variable c : config.
Variables (NSS : list (list tnode)) (h : nat) (s : surf) (kvs : list kv).
Hypothesis SR : surf_rep fp c NSS h s.
Hypothesis RT : nth_error NSS 0 = Some [mknode kvs 0].
Hypothesis LO : Forall (leaf_ok c) (leaves (concat NSS)).
Hypothesis INC : increasing (map fst kvs).
Hypothesis NI : Forall (ninv kvs) (concat NSS).
Notation pok := (pok kvs).
Notation topn := (topn kvs).
Notation nid := (nid NSS).
Notation DS := (DS NSS h kvs).
Notation SS := (SS NSS h kvs).
Notation slen := (slen NSS h).
Notation sidle := (sidle NSS h).
Notation linked := (dw_linked fp c NSS h s SR).
Notation wf := (dw_wf fp c NSS h s SR).
Notation RNT := (RNT fp c NSS h s kvs SR RT).
Notation W := (root_wf0 fp c NSS h s kvs SR RT).
Notation dead := (dead NSS h kvs).
Notation bidle := (bidle NSS h kvs).
Notation AtP := (At NSS h kvs bidle).
Notation kstop := (kstop kvs h).
Notation panics := (prev_panics h (map fst kvs)).

Lemma decr_all d sp R0 PZ n0 : pok R0 -> topn R0 PZ n0 -> length R0 = h -> dbase NSS h kvs d R0 -> slen sp -> p_valid sp = false -> p_atTerm sp = false -> (sidle sp \/ (PZ = [] /\ exists f1, SS R0 n0 sp f1 [] /\ f_A f1 = [])) ->
  exists it', decrDense s (mkIter d sp) = Ok it' /\
    ((kstop (length (bef R0)) /\ dead it') \/ (~ kstop (length (bef R0)) /\ exists pre e, AtP it' pre e (tn_kvs n0 ++ aft R0))).
Proof.
  intros K0 T0 LH DB SLn VS AT I. unfold decrDense. cbn [i_dense i_sparse]. destruct (dbase_valid NSS h kvs _ _ DB) as [V IC]. rewrite V. cbn [negb].
  destruct R0 as [|f r].
  - assert (DB' := DB). cbn [dbase] in DB'. destruct DB' as (H0 & _ & _ & _ & RR & _). assert (EH : ld_height (s_ld s) = 0) by (rewrite (ldr_h _ _ _ _ _ (sr_ld fp c NSS h s SR)); exact H0).
    unfold d_prev. rewrite EH. cbn [Nat.eqb bind]. rewrite V. cbn [negb]. rewrite RR. eexists. split; [reflexivity|]. left. split; [now left|].
    constructor; cbn [i_dense i_sparse]; auto; apply DB.
  - destruct DB as (D & AP & _). pose proof (ds_h _ _ _ _ _ _ D) as LR. destruct (prev_all fp c NSS h s kvs SR RT d f r D AP) as (d' & -> & RES). cbn [bind].
    destruct RES as [(A0 & V' & DL)|(A0 & BN & ST)].
    + rewrite V'. cbn [negb]. eexists. split; [reflexivity|]. left. split; [apply (dies_stop kvs h W); auto|]. constructor; cbn [i_dense i_sparse]; auto; apply I.
    + assert (EN : tn_kvs n0 = i_grp (f_it f)) by (destruct T0 as (_ & -> & _); reflexivity). rewrite EN.
      destruct (after_right fp c NSS h s kvs SR RT d' sp _ ST) as (it' & E & pre & e & A); auto.
      * destruct I as [I|[-> (f1 & S1 & A1)]]; [now left|right]. exists (f :: r), n0, f1. split; auto. split; auto. split; auto. split; auto.
        pose proof (bef_aft_it kvs f r K0) as EK. pose proof (f_equal (@length _) EK) as EL. rewrite !app_length in EL. rewrite firstn_length, app_length.
        assert (0 < length (bef (f :: r))) by (destruct (bef (f :: r)); [congruence|cbn; lia]). lia.
      * exists it'. split; [exact E|]. right. split; [|eauto]. intros KS. apply A0. apply (stop_dies kvs h W); auto. apply (ds_noterm _ _ _ _ _ _ D).
Qed.

Lemma no_panic f r m : pok (f :: r) -> i_term (f_it f) = false -> length (bef (f :: r)) <= m -> ~ panics m.
Proof.
  intros PK NT L (M & _ & PA). destruct (first_path kvs r W f PK NT) as (x & B & E & T).
  - destruct (bef (f :: r)); [reflexivity|cbn [length] in L; lia].
  - destruct (prefix_term kvs W PA) as (t & B' & E' & T'). congruence.
Qed.

Lemma prev_at_all it pre e post : AtP it pre e post ->
  (panics (length pre) /\ it_prev s it = Panic) \/
  (~ panics (length pre) /\ exists it', it_prev s it = Ok it' /\
    ((kstop (length pre) /\ dead it') \/ (~ kstop (length pre) /\ exists e' pre', pre = pre' ++ [e'] /\ AtP it' pre' e' (e :: post)))).
Proof.
  intros A. assert (FIN : forall it', (exists p1 e1, AtP it' p1 e1 (e :: post)) -> exists e' pre', pre = pre' ++ [e'] /\ AtP it' pre' e' (e :: post)).
  { intros it' (p1 & e1 & A1). pose proof (at_kvs _ _ _ _ _ _ _ _ A) as E0. pose proof (at_kvs _ _ _ _ _ _ _ _ A1) as E1. rewrite <- E0 in E1.
    change (p1 ++ e1 :: e :: post) with (p1 ++ [e1] ++ (e :: post)) in E1. rewrite app_assoc in E1. apply app_inv_tail in E1. exists e1, p1. auto. }
  assert (LEN : length kvs - length (e :: post) - 1 = length pre - 1). { rewrite <- (at_kvs _ _ _ _ _ _ _ _ A), app_length. cbn [length]. lia. }
  assert (FP : firstn (length pre - 1) kvs = firstn (length pre - 1) pre). { rewrite <- (at_kvs _ _ _ _ _ _ _ _ A), firstn_app. replace (length pre - 1 - length pre) with 0 by lia. apply app_nil_r. }
  unfold it_prev. destruct A as [p e q D I V|R0 PZ n0 p e q K0 T0 LH DB ST].
  - assert (I' : bidle (i_sparse it) (firstn (length kvs - length (e :: q) - 1) kvs)).
    { rewrite LEN, FP. destruct I as [I|(R1 & n1 & f1 & K1 & T1 & L1 & LT & S1)]; [now left|right]. exists R1, n1, f1. split; auto. split; auto. split; auto. split; auto. rewrite firstn_length. lia. }
    rewrite V. destruct it as [d sp]. cbn [i_dense i_sparse] in *. unfold decrDense. cbn [i_dense i_sparse]. destruct (dcomp_flags _ _ _ _ _ _ _ D) as (-> & _ & _ & _). cbn [negb].
    destruct D as [f r e D HC G AP FL|f r t e D EA Tt G AP FL].
    + pose proof (ds_pok _ _ _ _ _ _ D) as PK. pose proof (ds_h _ _ _ _ _ _ D) as LR. pose proof (ds_noterm _ _ _ _ _ _ D) as NT.
      right. split; [apply (no_panic f r); auto|]. destruct (prev_all fp c NSS h s kvs SR RT d f r D AP) as (d' & -> & RES). cbn [bind].
      destruct RES as [(A0 & V' & DL)|(A0 & BN & STR)].
      * rewrite V'. cbn [negb]. eexists. split; [reflexivity|]. left. split; [apply (dies_stop kvs h W); auto|]. constructor; cbn [i_dense i_sparse]; auto. eapply bidle_slen; eauto.
      * rewrite G in STR. destruct (after_right fp c NSS h s kvs SR RT d' sp _ STR I' V) as (it' & E & p1 & e1 & A). exists it'. split; [exact E|]. right. split; [|apply FIN; eauto].
        intros KS. apply A0. apply (stop_dies kvs h W); auto.
    + pose proof (ds_h _ _ _ _ _ _ D) as LR. pose proof (ds_pok _ _ _ _ _ _ D) as PK. pose proof PK as (PK1 & T1 & EI). destruct r as [|g r].
      * left. split; [|rewrite (prev_term_root fp c NSS h s kvs SR d f t D AP EA); reflexivity]. split; [reflexivity|]. split; [cbn in LR; lia|].
        destruct T1 as [_ EN]. rewrite EN, EA in EI. apply (term_prefix kvs t (f_it f :: f_B f) W EI Tt).
      * destruct T1 as (HC & EN & EP). assert (NTg : i_term (f_it g) = false) by (apply (item_hasc_noterm (f_n g)); auto; eapply frame_in; eauto). cbn [length] in LR.
        right. split; [apply (no_panic g r); auto|]. destruct (prev_term_all fp c NSS h s kvs SR RT d f g r t D AP EA Tt) as (d' & -> & RES). cbn [bind].
        destruct RES as [(A0 & V' & DL)|(A0 & BN & STR)].
        -- rewrite V'. cbn [negb]. eexists. split; [reflexivity|]. left. split; [apply (dies_stop kvs h W); auto; lia|]. constructor; cbn [i_dense i_sparse]; auto. eapply bidle_slen; eauto.
        -- rewrite G in STR. destruct (after_right fp c NSS h s kvs SR RT d' sp _ STR I' V) as (it' & E & p1 & e1 & A). exists it'. split; [exact E|]. right. split; [|apply FIN; eauto].
           intros KS. apply A0. apply (stop_dies kvs h W); auto. lia.
  - destruct it as [d sp]. cbn [i_dense i_sparse] in *. assert (ST0 := ST). destruct ST as [f G e' S HC GE V AT]. rewrite V.
    right. split.
    { destruct R0 as [|f0 r0]; [intros (_ & H0 & _); cbn [length] in LH; lia|]. apply (no_panic f0 r0); auto; [|rewrite app_length; lia].
      apply (item_hasc_noterm (f_n f0)); [eapply frame_in; eauto|apply T0]. }
    destruct (s_prev_spec fp c NSS h s kvs SR RT R0 PZ n0 K0 T0 LH RNT sp f G S) as (sp' & -> & RES). cbn [bind]. destruct RES as [(A0 & SL & V' & AT' & I)|(A0 & STR)].
    + rewrite V'. destruct (decr_all d sp' R0 PZ n0 K0 T0 LH DB SL V' AT' I) as (it' & -> & RES). exists it'. split; [reflexivity|]. rewrite A0, app_nil_r.
      destruct RES as [(AE & VI)|(AE & p1 & e1 & A1)]; [left; auto|]. right. split; [exact AE|]. rewrite A0, app_nil_r in FIN.
      apply FIN. exists p1, e1. rewrite <- (sstop_kvs NSS h kvs R0 PZ n0 K0 T0 _ _ _ _ ST0), A0 in A1. exact A1.
    + destruct STR as (p1 & e1 & STR). assert (V' : p_valid sp' = true) by (destruct STR; auto). rewrite V'. eexists. split; [reflexivity|]. right. split.
      * apply (inside_no_stop kvs h R0 PZ n0); auto; rewrite app_length.
        -- destruct (bef (f :: G)); [congruence|cbn [length]; lia].
        -- pose proof (sstop_kvs NSS h kvs R0 PZ n0 K0 T0 _ _ _ _ ST0) as EK. rewrite <- EK, app_length. cbn [length]. lia.
      * apply FIN.
        exists (bef R0 ++ p1), e1. rewrite GE in STR. change (e' :: aft (f :: G) ++ aft R0) with (([e'] ++ aft (f :: G)) ++ aft R0). now apply (at_s NSS h kvs _ (mkIter d sp') R0 PZ n0 p1 e1).
Qed.

Lemma last_root_all : exists A b, items (mknode kvs 0) = A ++ [b] /\ i_term b = false.
Proof.
  pose proof (items_pos _ W) as IP. destruct (last_split (items (mknode kvs 0))) as [E|(A & b & E)]; [rewrite E in IP; cbn in IP; lia|]. exists A, b. split; auto.
  destruct A as [|a A]; [apply RNT; exact E|]. cbn [app] in E. pose proof (tail_noterm _ _ _ E) as TN. rewrite Forall_forall in TN. apply TN. apply in_or_app. right. now left.
Qed.
Lemma last_all it : iter_for s it -> 0 < h -> exists it', it_seekToLast s it = Ok it' /\ exists pre e, AtP it' pre e [].
Proof.
  intros F H0. unfold it_seekToLast. assert (EH : ld_height (s_ld s) = h) by apply (ldr_h _ _ _ _ _ (sr_ld fp c NSS h s SR)). rewrite EH.
  destruct (Nat.ltb_spec 0 h); [|lia]. destruct last_root_all as (A & b & EI & Tb).
  destruct (setToLast_spec fp c NSS h s kvs SR RT (i_dense (it_reset it)) A b) as (d & -> & D & AP); auto. { eapply reset_dlen; eauto. } cbn [bind].
  destruct (moveRight_spec fp c NSS h s kvs SR RT d _ _ D AP) as (d' & -> & ST). cbn [bind].
  assert (I : sidle (i_sparse (it_reset it))) by (eapply reset_idle; eauto). destruct (after_right fp c NSS h s kvs SR RT d' (i_sparse (it_reset it)) _ ST) as (it' & E' & pre & e & A'); [now left|apply I|].
  assert (V : d_valid d' = true). { destruct ST as (p & mid & ST). destruct ST as [? ? ? ? ? ? ? (V & _)|? ? ? ? ? ? ? ? ? (V & _)|? ? ? ? ? ? (V & _)]; exact V. }
  rewrite V in E'. exists it'. split; [exact E'|]. exists pre, e. exact A'.
Qed.

Lemma first_all it : iter_for s it -> 0 < h -> exists it' pre e post, it_seekToFirst s it = Ok it' /\ At NSS h kvs (fidle NSS h) it' pre e post /\
  ((prefix_of_all (map fst kvs) /\ length pre = 1) \/ (~ prefix_of_all (map fst kvs) /\ length pre = 0)).
Proof.
  intros F H0. pose proof (items_pos _ W) as IP. destruct (items (mknode kvs 0)) as [|b B] eqn:EI; [cbn in IP; lia|].
  destruct (i_term b) eqn:Tb.
  - destruct B as [|x B]; [rewrite (RNT b EI) in Tb; discriminate|]. pose proof (tail_noterm _ _ _ EI) as TN. inversion TN; subst.
    destruct (first_spec fp c NSS h s kvs SR RT it [b] x B F H0 EI ltac:(assumption) ltac:(intros z [<-|[]]; exact Tb)) as (it' & E & e & post & A).
    exists it', (concat (map i_grp [b])), e, post. split; [exact E|]. split; [exact A|]. left. split; [eapply term_prefix; eauto; exact W|].
    cbn [map concat]. rewrite app_nil_r. apply (term_one (mknode kvs 0) b W); auto. rewrite EI. now left.
  - destruct (first_spec fp c NSS h s kvs SR RT it [] b B F H0 EI Tb ltac:(intros x [])) as (it' & E & e & post & A).
    exists it', [], e, post. split; [exact E|]. split; [exact A|]. right. split; [|reflexivity]. intros PA. destruct (prefix_term kvs W PA) as (t & B' & E' & T'). congruence.
Qed.

(** Backward from a position: down to the greatest stop. *)
Lemma one_stop : prefix_of_all (map fst kvs) -> 0 < h -> kstop 1.
Proof.
  intros PA H0. pose proof PA as (L & k & Hk & PK). rewrite map_length in L. apply (keys_stop kvs h W); [lia|]. right. left. split; auto. cbn [Nat.sub].
  destruct (prefix_term kvs W PA) as (t & B & E & T). destruct (item_term _ t W ltac:(rewrite E; now left) T) as (e & r & EK & G & FE & NE & _). change (tn_kvs (mknode kvs 0)) with kvs in EK.
  intros k' H. rewrite EK. cbn [map nth]. destruct (in_map_fst _ _ H) as (v & Hv). rewrite FE. apply (ndpath_prefix (mknode kvs 0) (k', v) W Hv).
Qed.
Lemma back_all : 0 < h -> forall j pre it e post, length pre = j -> AtP it pre e post -> (prefix_of_all (map fst kvs) -> 0 < length pre) ->
  exists m, m <= length pre /\ kstop m /\ (forall i, m < i -> i <= length pre -> ~ kstop i) /\
  visits s (it_prev s) it (map (shown (c_valueSize c) (map fst kvs)) (e :: rev (skipn m pre))).
Proof.
  intros H0. induction j as [|j IH]; intros pre it e post Ej A PZ; destruct (at_show fp c NSS h s kvs SR RT LO INC NI _ _ _ _ _ A) as [K V];
    (destruct (prev_at_all it pre e _ A) as [[(P & _ & PA) _]|(_ & it' & E & [(KS & D)|(NS & e1 & p1 & -> & A')])]; [specialize (PZ PA); lia| |]).
  - exists (length pre). split; [lia|]. split; [exact KS|]. split; [lia|]. rewrite skipn_all. cbn [rev map]. eapply visits_step; eauto; [eapply at_valid; eauto|]. constructor. eapply dead_invalid; eauto.
  - rewrite app_length in Ej. cbn in Ej. lia.
  - exists (length pre). split; [lia|]. split; [exact KS|]. split; [lia|]. rewrite skipn_all. cbn [rev map]. eapply visits_step; eauto; [eapply at_valid; eauto|]. constructor. eapply dead_invalid; eauto.
  - rewrite app_length in *. cbn [length] in *. destruct (IH p1 it' e1 (e :: post) ltac:(lia) A') as (m & Lm & KM & NM & VI).
    { intros PA. destruct p1; [exfalso; apply NS, one_stop; auto|cbn [length]; lia]. }
    exists m. split; [lia|]. split; [exact KM|]. split.
    + intros i I1 I2. destruct (Nat.eq_dec i (length p1 + 1)) as [->|]; [exact NS|]. apply NM; lia.
    + rewrite skipn_app. replace (m - length p1) with 0 by lia. cbn [skipn]. rewrite rev_app_distr. cbn [rev app]. rewrite map_cons. eapply visits_step; eauto. eapply at_valid; eauto.
Qed.
End Top.

Section Main.
Variables (fp : bytes -> N) (vs h r : nat) (keys vals : list bytes) (hint : Z) (s : surf).
Hypothesis V : valid_input vs h r keys vals.
Hypothesis B : built fp vs h r keys vals hint s.
Notation kvs := (combine keys vals).
Notation NSS := (trie kvs).

Theorem forward_all it0 : iter_for s it0 -> 0 < ld_height (s_ld s) ->
  exists it, it_seekToFirst s it0 = Ok it /\
    ((prefix_of_all keys /\ visits s (it_next s) it (map (shown vs keys) (tl kvs))) \/
     (~ prefix_of_all keys /\ visits s (it_next s) it (map (shown vs keys) kvs))).
Proof.
  intros F H0. destruct (built_rep fp vs h r keys vals hint s V B) as (cut & SR & W & CO & LO & MF & RT).
  assert (INC : increasing (map fst kvs)) by (rewrite MF; apply V).
  assert (NI : Forall (ninv kvs) (concat NSS)) by (apply trie_ninv; auto).
  rewrite (ldr_h _ _ _ _ _ (sr_ld _ _ _ _ _ SR)) in H0.
  destruct (first_all fp (mkcfg vs h r) NSS cut s kvs SR RT it0 F H0) as (it & pre & e & post & E & A & C). exists it. split; [exact E|].
  pose proof (at_kvs _ _ _ _ _ _ _ _ A) as EK. pose proof (visits_fwd fp (mkcfg vs h r) NSS cut s kvs SR RT LO INC NI _ _ _ _ A) as VF. rewrite MF in C, VF.
  destruct C as [[P L]|[P L]]; [left|right]; (split; [exact P|]); rewrite <- EK.
  - destruct pre as [|a [|]]; cbn [length] in L; try lia. exact VF.
  - destruct pre; [|discriminate]. exact VF.
Qed.

Theorem backward_all it0 : iter_for s it0 -> 0 < ld_height (s_ld s) ->
  exists it m, it_seekToLast s it0 = Ok it /\ m < length keys /\ prev_stops (ld_height (s_ld s)) keys m /\
    (forall i, m < i -> i < length keys -> ~ prev_stops (ld_height (s_ld s)) keys i) /\
    visits s (it_prev s) it (map (shown vs keys) (rev (skipn m kvs))).
Proof.
  intros F H0. destruct (built_rep fp vs h r keys vals hint s V B) as (cut & SR & W & CO & LO & MF & RT).
  assert (INC : increasing (map fst kvs)) by (rewrite MF; apply V).
  assert (NI : Forall (ninv kvs) (concat NSS)) by (apply trie_ninv; auto).
  rewrite (ldr_h _ _ _ _ _ (sr_ld _ _ _ _ _ SR)) in *.
  destruct (last_all fp (mkcfg vs h r) NSS cut s kvs SR RT it0 F H0) as (it & E & pre & e & A). exists it.
  pose proof (at_kvs _ _ _ _ _ _ _ _ A) as EK. assert (LK : length kvs = S (length pre)) by (rewrite <- EK, app_length; cbn; lia).
  assert (LKK : length keys = length kvs) by (pose proof (f_equal (@length _) MF) as ML; rewrite map_length in ML; symmetry; exact ML).
  assert (IFF : forall i, i < length kvs -> kstop kvs cut i <-> prev_stops cut keys i).
  { intros i Hi. pose proof (stop_keys kvs cut W i Hi) as H1. pose proof (keys_stop kvs cut W i Hi) as H2. rewrite MF in H1, H2. split; auto. }
  destruct (back_all fp (mkcfg vs h r) NSS cut s kvs SR RT LO INC NI H0 _ pre it e [] eq_refl A) as (m & Lm & KM & NM & VI).
  { rewrite MF. intros (L & _). lia. }
  exists m. split; [exact E|]. split; [lia|]. split; [apply IFF; auto; lia|]. split; [intros i I1 I2; rewrite <- IFF by lia; apply NM; lia|].
  rewrite MF in VI. rewrite <- EK, skipn_app. replace (m - length pre) with 0 by lia. cbn [skipn]. rewrite rev_app_distr. exact VI.
Qed.
End Main.

(** Arbitrary sequences of calls. *)
Section Cursor.
Variables (fp : bytes -> N) (vs h r : nat) (keys vals : list bytes) (hint : Z) (s : surf).
Hypothesis V : valid_input vs h r keys vals.
Hypothesis B : built fp vs h r keys vals hint s.
Notation kvs := (combine keys vals).
Notation NSS := (trie kvs).
Section Rep.
Variable cut : nat.
Hypothesis SR : surf_rep fp (mkcfg vs h r) NSS cut s.
Hypothesis W : nwf (mknode kvs 0).
Hypothesis CO : cfg_ok (mkcfg vs h r).
Hypothesis LO : Forall (leaf_ok (mkcfg vs h r)) (leaves (concat NSS)).
Hypothesis MF : map fst kvs = keys.
Hypothesis RT : nth_error NSS 0 = Some [mknode kvs 0].
Hypothesis INC : increasing (map fst kvs).
Hypothesis NI : Forall (ninv kvs) (concat NSS).
Notation inv := (cur_inv keys vals cut).

Lemma iff_stop i : i < length kvs -> kstop kvs cut i <-> prev_stops cut keys i.
Proof.
  intros Hi. pose proof (stop_keys kvs cut W i Hi) as H1. pose proof (keys_stop kvs cut W i Hi) as H2. rewrite MF in H1, H2. split; auto.
Qed.

Lemma step_all it cur c : inv it cur -> call_ok_all cut keys c ->
  (call_panics cut keys cur c /\ icall_run s it c = Panic) \/
  (~ call_panics cut keys cur c /\ exists it' cur', icall_run s it c = Ok it' /\ moved_all r cut keys cur c cur' /\ inv it' cur').
Proof.
  intros I OK. pose proof (cur_for fp vs h r keys vals s cut SR _ _ I) as F. pose proof (ldr_h _ _ _ _ _ (sr_ld _ _ _ _ _ SR)) as EH.
  destruct c as [q| | | |]; cbn [icall_run call_ok_all call_panics] in *.
  - right. split; [tauto|]. apply (cur_step fp vs h r keys vals s V cut SR W CO LO MF RT INC NI it cur (ISeek q) I). rewrite EH. exact OK.
  - right. split; [tauto|]. destruct (first_all fp (mkcfg vs h r) NSS cut s kvs SR RT it F OK) as (it' & pre & e & post & E & A & C). exists it', (Some (length pre)).
    split; [exact E|]. split; [|right; exists pre, e, post; split; auto; now apply at_mono]. cbn [moved_all]. rewrite MF in C. destruct C as [[P ->]|[P ->]]; auto.
  - right. split; [tauto|]. destruct (last_all fp (mkcfg vs h r) NSS cut s kvs SR RT it F OK) as (it' & E & pre & e & A). exists it', (Some (length pre)). split; [exact E|]. split; [|right; eauto 6].
    cbn [moved_all moved]. destruct (at_nth vs h r keys vals V cut MF _ _ _ _ A) as (_ & _ & _ & _ & _ & LE). cbn [length] in LE. f_equal. lia.
  - right. split; [tauto|]. apply (cur_step fp vs h r keys vals s V cut SR W CO LO MF RT INC NI it cur INext I). exact Logic.I.
  - destruct I as [[-> D]|(pre & e & post & -> & A)].
    + right. split; [tauto|]. exists it, None. split; [eapply (dead_prev fp (mkcfg vs h r) NSS cut s kvs SR); eauto|]. split; [reflexivity|left; auto].
    + cbn [moved_all]. pose proof (at_kvs _ _ _ _ _ _ _ _ A) as EK. assert (LK : length pre < length kvs) by (rewrite <- EK, app_length; cbn; lia).
      destruct (prev_at_all fp (mkcfg vs h r) NSS cut s kvs SR RT it pre e post A) as [(P & E)|(NP & it' & E & C)]; rewrite MF in *; [left; auto|right]. split; [exact NP|].
      destruct C as [(KS & D)|(NS & e' & pre' & -> & A')].
      * exists it', None. split; [exact E|]. split; [left; split; auto; now apply iff_stop|left; auto].
      * exists it', (Some (length pre')). rewrite iff_stop in NS by exact LK. split; [exact E|]. split; [right; split; auto; rewrite app_length; cbn [length]; f_equal; lia|right; eauto 6].
Qed.
Lemma follows_from cs : forall it cur, inv it cur -> Forall (call_ok_all cut keys) cs -> follows_all vs r keys vals s it cur cs.
Proof.
  pose proof (ldr_h _ _ _ _ _ (sr_ld _ _ _ _ _ SR)) as EH.
  induction cs as [|c cs IH]; intros it cur I F; cbn [follows_all]; (split; [now apply (cur_shows fp vs h r keys vals s V cut SR LO MF RT INC NI)|]); auto.
  pose proof (Forall_inv F) as F1. pose proof (Forall_inv_tail F) as F2. rewrite EH. destruct (step_all it cur c I F1) as [C|(N & it' & cur' & E & M & I')]; [now left|right]. split; [exact N|]. exists it', cur'. auto.
Qed.
End Rep.

Theorem cursor_all cs : Forall (call_ok_all (ld_height (s_ld s)) keys) cs -> follows_all vs r keys vals s (newIterator s) None cs.
Proof.
  intros F. destruct (built_rep fp vs h r keys vals hint s V B) as (cut & SR & W & CO & LO & MF & RT).
  assert (INC : increasing (map fst kvs)) by (rewrite MF; apply V).
  assert (NI : Forall (ninv kvs) (concat NSS)) by (apply trie_ninv; auto).
  rewrite (ldr_h _ _ _ _ _ (sr_ld _ _ _ _ _ SR)) in F. apply (follows_from cut SR W CO LO MF RT INC NI); auto. now apply (cur_new fp vs h r keys vals s cut SR).
Qed.
End Cursor.
