(** * No iterator call panics or runs forever, wherever Seek has put the iterator. *)
From Coq Require Import Sorted.
From Verif Require Import Base BitsModel BitsFacts VecModel VecProofs VecProofs2 SurfModel SurfTrie SurfSuffix SurfBuild SurfDense SurfEnc SurfBuildTop SurfGet SurfGet2 SurfSpec SurfWalk SurfTop SurfSuffix3 SurfIter SurfIterSpec SurfIterPath SurfIterDense SurfIterSparse SurfIterTop SurfIterMain SurfIterSeek SurfIterSeek2 SurfIterPrev SurfIterPrev2 SurfIterPrev3 SurfIterCmp SurfSafe.
Ltac Zify.zify_post_hook ::= Z.div_mod_to_equations.

Section Safe2.
Variable fp : bytes -> N.
Variable c : config.
Variables (NSS : list (list tnode)) (h : nat) (s : surf) (kvs : list kv).
Hypothesis SR : surf_rep fp c NSS h s.
Hypothesis RT : nth_error NSS 0 = Some [mknode kvs 0].
Hypothesis CO : cfg_ok c.
Hypothesis LO : Forall (leaf_ok c) (leaves (concat NSS)).
Hypothesis INC : increasing (map fst kvs).
Hypothesis NI : Forall (ninv kvs) (concat NSS).
Notation ld := (s_ld s).
Notation ls := (s_ls s).
Notation pok := (pok kvs).
Notation topn := (topn kvs).
Notation nid := (nid NSS).
Notation DS := (DS NSS h kvs).
Notation slen := (slen NSS h).
Notation dslots := (dslots NSS).
Notation linked := (dw_linked fp c NSS h s SR).
Notation wf := (dw_wf fp c NSS h s SR).
Notation RNT := (RNT fp c NSS h s kvs SR RT).
Notation W0 := (root_wf0 fp c NSS h s kvs SR RT).
Notation dead := (dead NSS h kvs).
Notation dbase := (dbase NSS h kvs).
Notation dcomp := (dcomp NSS h kvs).
Notation dstopL := (dstopL NSS h kvs).
Notation dstopR := (dstopR NSS h kvs).
Notation idle := (idle NSS h).
Notation stands := (stands NSS h s).
Notation gnode := (gnode NSS h).
Notation move_idle := (move_idle fp c NSS h s kvs SR RT CO LO).

(** The iterator is on a dense key, somewhere in the sparse part, or nowhere. *)
Inductive sound (it : iter) : Prop :=
| so_d pre e post : dcomp (i_dense it) pre e post -> idle (i_sparse it) -> sound it
| so_s R0 PZ n0 : pok R0 -> topn R0 PZ n0 -> length R0 = h -> dbase (i_dense it) R0 -> stands (i_sparse it) -> p_startDepth (i_sparse it) = tn_pd n0 -> sound it
| so_x : dead it -> sound it.

Lemma top_gnode R0 PZ n0 : pok R0 -> topn R0 PZ n0 -> length R0 = h -> gnode 0 (nid h PZ).
Proof. intros K T L. destruct (top_at NSS kvs linked RT R0 K PZ n0 T) as (Q & AT). rewrite L in AT. exists h, PZ, n0, Q. split; [lia|auto]. Qed.

Lemma enter_any (left : bool) d sp f r : idle sp -> DS d f r -> S (length r) = h -> hasc (f_it f) = true -> d_atPrefix d = false ->
  d_valid d = true -> d_isComplete d = false -> d_sendNode d = nid h (kids f) -> d_sendDepth d = length (d_key d) ->
  exists it', it_sparse (passToSparse (mkIter d sp)) (p_move (if left then ls_firstLabelPos ls else ls_lastLabelPos ls) ls) = Ok it' /\ sound it'.
Proof.
  intros I D L HC AP V IC SN SD. unfold it_sparse, passToSparse. cbn [i_sparse i_dense].
  pose proof (ds_pok _ _ _ _ _ _ D) as PK. assert (T : topn (f :: r) (kids f) (mkchild (f_it f))) by (repeat split; auto).
  destruct (top_npath NSS kvs linked wf RT _ _ _ _ PK T) as [NP PD].
  pose proof (top_wf NSS kvs linked wf RT _ _ _ (proj1 PK) (proj1 (proj2 PK))) as Wn.
  assert (SD' : d_sendDepth d = tn_pd (mkchild (f_it f))). { rewrite SD, (ds_key _ _ _ _ _ _ D), app_length, PD, (ndpath_length _ Wn). reflexivity. }
  rewrite SN, SD'. destruct (move_idle left sp (nid h (kids f)) (tn_pd (mkchild (f_it f))) I) as (p & -> & ST & SD2). { eapply top_gnode; eauto. } cbn [bind].
  eexists. split; [reflexivity|]. apply (so_s (mkIter d p) (f :: r) (kids f) (mkchild (f_it f))); auto. cbn [SurfIterTop.dbase i_dense]. auto.
Qed.
Lemma after_l d sp pre : dstopL d pre -> idle sp ->
  exists it', (if negb (d_valid d) then Ok (mkIter d sp) else if d_left d then Ok (mkIter d sp) else it_sparse (passToSparse (mkIter d sp)) (p_moveLeft ls)) = Ok it' /\ sound it'.
Proof.
  intros (mid & post & ST) I. destruct (dstop_cases NSS h kvs _ _ _ _ _ _ ST) as [(e & -> & DC)|(f & r & D & L & HC & AP & (V & Se & LL & RR) & SN & SD & -> & -> & ->)].
  - destruct (dcomp_flags _ _ _ _ _ _ _ DC) as (-> & _ & -> & _). eexists. split; [reflexivity|]. eapply so_d; eauto.
  - rewrite V, LL. cbn [negb]. apply (enter_any true d sp f r); auto. unfold d_isComplete. now rewrite Se, LL.
Qed.
Lemma after_r d sp post : dstopR d post -> idle sp ->
  exists it', (if negb (d_valid d) then Ok (mkIter d sp) else if d_right d then Ok (mkIter d sp) else it_sparse (passToSparse (mkIter d sp)) (p_moveRight ls)) = Ok it' /\ sound it'.
Proof.
  intros (pre & mid & ST) I. destruct (dstop_cases NSS h kvs _ _ _ _ _ _ ST) as [(e & -> & DC)|(f & r & D & L & HC & AP & (V & Se & LL & RR) & SN & SD & -> & -> & ->)].
  - destruct (dcomp_flags _ _ _ _ _ _ _ DC) as (-> & _ & _ & ->). eexists. split; [reflexivity|]. eapply so_d; eauto.
  - rewrite V, RR. cbn [negb]. apply (enter_any false d sp f r); auto. unfold d_isComplete. now rewrite Se, RR, LL.
Qed.

Lemma idle_slen sp : idle sp -> slen sp /\ p_valid sp = false. Proof. intros (A & B & _). auto. Qed.
Lemma dies_sound d sp : d_valid d = false -> dlen h d -> idle sp -> sound (mkIter d sp).
Proof. intros V DL I. destruct (idle_slen _ I). apply so_x. constructor; auto. Qed.
Lemma base_sound d sp : dbase d [] -> idle sp -> sound (mkIter d sp).
Proof. intros DB I. destruct (idle_slen _ I). apply so_x. constructor; auto. apply DB. Qed.

Lemma incr_sound d sp R0 PZ n0 : pok R0 -> topn R0 PZ n0 -> length R0 = h -> dbase d R0 -> idle sp -> exists it', incrDense s (mkIter d sp) = Ok it' /\ sound it'.
Proof.
  intros K0 T0 LH DB I. unfold incrDense. cbn [i_dense i_sparse]. destruct (dbase_valid _ _ _ _ _ DB) as [V IC]. rewrite V. cbn [negb]. destruct R0 as [|f r].
  - assert (DB' := DB). cbn [SurfIterTop.dbase] in DB'. destruct DB' as (H0 & _ & _ & LL & _). assert (EH : ld_height (s_ld s) = 0) by (rewrite (ldr_h _ _ _ _ _ (sr_ld fp c NSS h s SR)); exact H0).
    unfold d_next. rewrite EH. cbn [Nat.eqb bind]. rewrite V. cbn [negb]. rewrite LL. eexists. split; [reflexivity|]. now apply base_sound.
  - destruct DB as (D & AP & _). destruct (next_spec fp c NSS h s kvs SR RT d f r D AP) as (d' & -> & RES). cbn [bind]. destruct RES as [(A0 & V' & DL)|(A0 & ST)].
    + rewrite V'. cbn [negb]. eexists. split; [reflexivity|]. now apply dies_sound.
    + eapply after_l; eauto.
Qed.
Lemma decr_sound d sp R0 PZ n0 : pok R0 -> topn R0 PZ n0 -> length R0 = h -> dbase d R0 -> idle sp -> exists it', decrDense s (mkIter d sp) = Ok it' /\ sound it'.
Proof.
  intros K0 T0 LH DB I. unfold decrDense. cbn [i_dense i_sparse]. destruct (dbase_valid _ _ _ _ _ DB) as [V IC]. rewrite V. cbn [negb]. destruct R0 as [|f r].
  - assert (DB' := DB). cbn [SurfIterTop.dbase] in DB'. destruct DB' as (H0 & _ & _ & _ & RR & _). assert (EH : ld_height (s_ld s) = 0) by (rewrite (ldr_h _ _ _ _ _ (sr_ld fp c NSS h s SR)); exact H0).
    unfold d_prev. rewrite EH. cbn [Nat.eqb bind]. rewrite V. cbn [negb]. rewrite RR. eexists. split; [reflexivity|]. now apply base_sound.
  - destruct DB as (D & AP & _). destruct (prev_all fp c NSS h s kvs SR RT d f r D AP) as (d' & -> & RES). cbn [bind]. destruct RES as [(A0 & V' & DL)|(A0 & _ & ST)].
    + rewrite V'. cbn [negb]. eexists. split; [reflexivity|]. now apply dies_sound.
    + eapply after_r; eauto.
Qed.

Notation next_safe := (next_safe fp c NSS h s kvs SR RT CO LO).
Notation prev_safe := (prev_safe fp c NSS h s kvs SR RT CO LO).

Lemma next_sound it : sound it -> exists it', it_next s it = Ok it' /\ sound it'.
Proof.
  intros [pre e post D I|R0 PZ n0 K0 T0 LH DB ST SD|X].
  - unfold it_next. destruct it as [d sp]. cbn [i_dense i_sparse] in *. destruct (idle_slen _ I) as [_ VS]. rewrite VS. unfold incrDense. cbn [i_dense i_sparse]. destruct (dcomp_flags _ _ _ _ _ _ _ D) as (-> & _ & _ & _). cbn [negb].
    destruct D as [f r e D HC G AP FL|f r t e D EA Tt G AP FL].
    + destruct (next_spec fp c NSS h s kvs SR RT d f r D AP) as (d' & -> & RES). cbn [bind]. destruct RES as [(A0 & V' & DL)|(A0 & STL)].
      * rewrite V'. cbn [negb]. eexists. split; [reflexivity|]. now apply dies_sound.
      * eapply after_l; eauto.
    + destruct (next_term fp c NSS h s kvs SR RT d f r D AP) as (d' & -> & STL). cbn [bind]. eapply after_l; eauto.
  - unfold it_next. destruct it as [d sp]. cbn [i_dense i_sparse] in *. destruct ST as (IN & VS & LA). rewrite VS. destruct (next_safe sp IN) as (sp' & -> & SD' & [ST'|I']); cbn [bind].
    + pose proof ST' as (_ & -> & _). eexists. split; [reflexivity|]. apply (so_s _ R0 PZ n0); auto. cbn [i_sparse]. congruence.
    + destruct (idle_slen _ I') as [_ ->]. eapply incr_sound; eauto.
  - rewrite (dead_next fp c NSS h s kvs SR it X). eexists. split; [reflexivity|]. now apply so_x.
Qed.

(** Prev: the one exception. *)
Definition at_root (it : iter) : Prop := exists f t e, dcomp (i_dense it) [] e (i_grp (f_it f) ++ aft [f]) /\ DS (i_dense it) f [] /\ f_A f = [t] /\ i_term t = true /\ d_atPrefix (i_dense it) = true.
Lemma prev_sound it : sound it -> (at_root it /\ it_prev s it = Panic) \/ (~ at_root it /\ exists it', it_prev s it = Ok it' /\ sound it').
Proof.
  intros [pre e post D I|R0 PZ n0 K0 T0 LH DB ST SD|X].
  - unfold it_prev. destruct it as [d sp]. cbn [i_dense i_sparse] in *. destruct (idle_slen _ I) as [_ VS]. rewrite VS. unfold decrDense. cbn [i_dense i_sparse]. pose proof D as D0. destruct (dcomp_flags _ _ _ _ _ _ _ D) as (-> & _ & _ & _). cbn [negb].
    destruct D as [f r e D HC G AP FL|f r t e D EA Tt G AP FL].
    + right. split. { intros (? & ? & ? & _ & _ & _ & _ & AP'). cbn [i_dense] in AP'. congruence. }
      destruct (prev_all fp c NSS h s kvs SR RT d f r D AP) as (d' & -> & RES). cbn [bind]. destruct RES as [(A0 & V' & DL)|(A0 & _ & STR)].
      * rewrite V'. cbn [negb]. eexists. split; [reflexivity|]. now apply dies_sound.
      * eapply after_r; eauto.
    + destruct r as [|g r].
      * left. split; [|rewrite (prev_term_root fp c NSS h s kvs SR d f t D AP EA); reflexivity]. exists f, t, e. auto 6.
      * right. split. { intros (f' & t' & e' & _ & D' & _). cbn [i_dense] in D'. pose proof (ds_level _ _ _ _ _ _ D') as L1. pose proof (ds_level _ _ _ _ _ _ D) as L2. rewrite L1 in L2. discriminate. }
        destruct (prev_term_all fp c NSS h s kvs SR RT d f g r t D AP EA Tt) as (d' & -> & RES). cbn [bind]. destruct RES as [(A0 & V' & DL)|(A0 & _ & STR)].
        -- rewrite V'. cbn [negb]. eexists. split; [reflexivity|]. now apply dies_sound.
        -- eapply after_r; eauto.
  - right. split.
    { intros (f' & t' & e' & D' & _). destruct (dcomp_flags _ _ _ _ _ _ _ D') as (_ & IC & _). destruct (dbase_valid _ _ _ _ _ DB) as [_ IC']. congruence. }
    unfold it_prev. destruct it as [d sp]. cbn [i_dense i_sparse] in *. destruct ST as (IN & VS & LA). rewrite VS. destruct (prev_safe sp IN) as (sp' & -> & SD' & [ST'|I']); cbn [bind].
    + pose proof ST' as (_ & -> & _). eexists. split; [reflexivity|]. apply (so_s _ R0 PZ n0); auto. cbn [i_sparse]. congruence.
    + destruct (idle_slen _ I') as [_ ->]. eapply decr_sound; eauto.
  - right. split.
    { intros (f' & t' & e' & D' & _). destruct (dcomp_flags _ _ _ _ _ _ _ D') as (V' & IC & _). pose proof (dead_invalid _ _ _ _ X) as DI. unfold it_valid in DI. rewrite V', IC in DI. discriminate. }
    rewrite (dead_prev fp c NSS h s kvs SR it X). eexists. split; [reflexivity|]. now apply so_x.
Qed.

(** ** Seek *)
Section Q.
Variable q : bytes.
Hypothesis Wq : wf_bytes q = true.
Inductive dany (d : denseIter) : Prop :=
| A1 pre : dstopL d pre -> dany d
| A2 pre e post : dcomp d pre e post -> dany d
| A3 : d_valid d = false -> dlen h d -> dany d
| A4 R0 PZ n0 : pok R0 -> topn R0 PZ n0 -> length R0 = h -> dbase d R0 -> d_search d = false -> d_sendNode d = nid h PZ -> d_sendDepth d = tn_pd n0 -> is_prefix (npath n0) q -> dany d.

Lemma next_any d f r : DS d f r -> d_atPrefix d = false -> exists d', d_next ld d = Ok d' /\ dany d'.
Proof.
  intros D AP. destruct (next_spec fp c NSS h s kvs SR RT d f r D AP) as (d' & -> & [(A0 & V & DV)|(A0 & ST)]); exists d'; split; auto; [now apply A3|eapply A1; eauto].
Qed.

Lemma dseek_any todo : forall it r P n, pok r -> topn r P n -> length r + todo = h -> dlen h it -> dslots (d_pos it) (d_plen it) r ->
  d_level it = length r -> d_key it = npath n -> d_atPrefix it = false -> is_prefix (npath n) q ->
  exists d b, d_seek_loop todo ld it q (nid (length r) P) (tn_pd n) = Ok (d, b) /\ dany d.
Proof.
  induction todo as [|todo IH]; intros it r P n PK T LH DL SL LV KE AP PR; cbn [d_seek_loop].
  - eexists _, _. split; [reflexivity|]. rewrite Nat.add_0_r in LH. apply (A4 _ r P n); auto; try (rewrite LH; reflexivity).
    destruct r as [|f r]; cbn [SurfIterTop.dbase].
    + cbn. repeat split; auto; [rewrite KE; apply (root_npath kvs P n T)|apply DL|apply DL].
    + cbn [length] in LH. split; [|split; [exact AP|split; reflexivity]]. eapply (ds_back fp c NSS h s kvs SR RT); eauto; cbn [d_setFlags d_setSend d_setLevel d_level d_pos d_plen d_key]; auto; [|lia].
      rewrite LV. reflexivity.
  - destruct (dense_at fp c NSS h s kvs SR RT r P n PK T) as (E1 & E2 & EC & LD & R & W & ED); [lia|].
    pose proof (top_wf NSS kvs linked wf RT _ _ _ PK T) as Wn.
    rewrite <- LD, (prefix_at fp c ld h E1 E2 n R). cbn [bind].
    destruct (top_ni fp c NSS h s kvs SR RT NI _ _ _ PK T) as [NIn TWn].
    destruct (node_cmp c kvs INC q n NIn TWn PR) as (cmp & -> & C1 & C2 & C3). cbn [bind].
    destruct (Z.ltb_spec cmp 0) as [LT|GE].
    { destruct r as [|f r].
      - assert (L0 : length E1 = 0) by (rewrite LD; destruct T as [-> _]; reflexivity). rewrite L0. cbn [Nat.eqb]. eexists _, _. split; [reflexivity|].
        apply A3; [reflexivity|destruct DL; constructor; auto].
      - destruct (Nat.eqb_spec (length E1) 0) as [Z0|_]; [exfalso; rewrite LD in Z0; eapply nid_pos; eauto|]. rewrite LV. cbn [length]. unfold sub_chk. cbn [Nat.leb bind].
        rewrite Nat.sub_succ, Nat.sub_0_r.
        assert (D : DS (d_setLevel it (length r)) f r).
        { eapply (ds_back fp c NSS h s kvs SR RT); eauto. cbn [length] in LH. lia. }
        destruct (next_any _ f r D AP) as (d' & -> & RES).
        cbn [bind]. eexists _, _. split; [reflexivity|exact RES]. }
    assert (PD : tn_pd n + length (nprefix n) = tn_d n) by now apply prefix_depth. rewrite PD.
    destruct (Nat.leb (length q) (tn_d n) || (0 <? cmp)%Z) eqn:C.
    { destruct (first_split fp c NSS h s kvs SR RT q r P n PK T) as (A & b & B & EI & Tb & TA & CASES).
      destruct (first_append fp c NSS h s kvs SR RT it r P n A b B) as (d1 & EF & DD & AP1); auto; [lia|].
      rewrite LD. rewrite EF. cbn [bind]. rewrite <- LD, (d_isPrefix fp c ld h E1 E2 n R). cbn [bind].
      destruct CASES as [(t & e & -> & Tt & Gt & NT)|(-> & NT)]; rewrite NT; cbn [bind].
      - eexists _, _. split; [reflexivity|]. apply (A1 _ (bef r)). eexists _, _. apply (dstop_term NSS h kvs false true _ (mkF P n [t] b B) r t e); auto.
        + now apply ds_flags, ds_at.
        + repeat split.
      - destruct (moveLeft_spec fp c NSS h s kvs SR RT d1 _ _ DD) as (d2 & -> & ST); [congruence|]. cbn [bind]. eexists _, _. split; [reflexivity|]. eapply A1; eauto. }
    apply orb_false_iff in C as [CL CZ]. apply Nat.leb_gt in CL. apply Z.ltb_ge in CZ. assert (PN : is_prefix (ndpath n) q) by (apply C3; lia).
    set (k := nth (tn_d n) q 0). assert (HK : nth_error q (tn_d n) = Some k) by (now apply nth_error_nth').
    rewrite (proj2 (idx_Ok _ _ _) HK). cbn [bind]. assert (LK : k < 256) by (apply key_byte; exact Wq).
    destruct (append_spec fp c NSS h s kvs SR RT it r P n k) as (ps & pl & EA & L1 & L2 & S1 & S2); auto; [lia|].
    rewrite LD, EA. cbn [bind]. rewrite <- LD, (d_label fp c ld h E1 E2 n R k LK). cbn [bind].
    set (it2 := d_setKey (d_setPos it ps pl) (ndpath n ++ [k])).
    destruct (label_find q n CL) as [(A & x & B & EI & Tx & Lx)|ABS].
    + assert (Ix : In x (items n)) by (rewrite EI; apply in_or_app; right; now left). fold k in Lx.
      assert (EX : existsb (fun it : item => noterm it && (i_label it =? k)) (items n) = true) by (apply (bits_item noterm); exists x; unfold noterm; rewrite Tx; auto).
      rewrite EX. cbn [negb]. rewrite <- Lx, (hasc_bit fp c ld h E1 E2 n R W x Ix Tx). cbn [bind]. set (f := mkF P n A x B).
      assert (FL : flab f = k) by exact Lx. assert (D : DS it2 f r).
      { constructor; cbn [it2 f d_setKey d_setPos d_level d_pos d_plen d_key f_it f_n]; auto.
        - constructor; auto.
        - cbn [SurfIterDense.dslots]. rewrite FL. auto.
        - now rewrite FL.
        - cbn [SurfIterPath.pok f_P f_n f_A f_it f_B]. auto.
        - lia. }
      assert (PF : is_prefix (ndpath n ++ [i_label x]) q).
      { rewrite Lx. pose proof PN as PN'. apply is_prefix_firstn_iff in PN'. rewrite (ndpath_length n Wn) in PN'. rewrite <- PN'. now apply firstn_nth_prefix. }
      destruct (hasc x) eqn:HC; cbn [negb].
      * assert (TC : topn (f :: r) (kids f) (mkchild x)) by (repeat split; auto).
        pose proof (child_id fp c NSS h s kvs SR RT it2 f r _ _ D TC) as CI. change (f_P f) with P in CI. change (flab f) with (i_label x) in CI. rewrite LD, CI. cbn [bind].
        destruct (top_npath NSS kvs linked wf RT r f _ _ (ds_pok _ _ _ _ _ _ D) TC) as [NP PDC]. change (f_n f) with n in NP, PDC. change (flab f) with (i_label x) in NP.
        rewrite <- PDC. apply (IH _ (f :: r) (kids f) (mkchild x)); auto.
        -- apply (ds_pok _ _ _ _ _ _ D).
        -- cbn [length]. lia.
        -- destruct (ds_len _ _ _ _ _ _ D). constructor; auto.
        -- apply (ds_slots _ _ _ _ _ _ D).
        -- cbn [d_setLevel d_level length]. now rewrite (ds_level _ _ _ _ _ _ D).
        -- cbn [d_setLevel d_key]. rewrite (ds_key _ _ _ _ _ _ D). symmetry. exact NP.
        -- rewrite NP. exact PF.
      * destruct (item_leaf n x Ix HC) as (e & G). unfold d_compareSuffix.
        rewrite (d_suffixPos_leaf fp c ld h E1 E2 n R W A x B EI Tx HC). cbn [bind].
        assert (LJ : nth_error (leaves (E1 ++ n :: E2)) (length (filter leafb (flat_map items E1 ++ A))) = Some x) by now apply (leaves_split E1 E2 n A x B).
        assert (LKO : leaf_ok c x).
        { pose proof (lo_dense c NSS h LO) as LD'. rewrite EC in LD'. rewrite Forall_forall in LD'. apply LD'. eapply nth_error_In; eauto. }
        destruct (cmp_total fp c CO (ld_suffixes ld) (leaves (E1 ++ n :: E2)) _ x q (tn_d n + 1) (ldr_suf _ _ _ _ _ R) LJ) as (cm & ->); [apply LKO|]. cbn [bind].
        destruct (Z.ltb_spec cm 0) as [LT|GE2].
        -- destruct (next_any it2 f r D AP) as (d' & -> & RES). cbn [bind]. eexists _, _. split; [reflexivity|exact RES].
        -- eexists _, _. split; [reflexivity|]. apply (A2 _ (bef (f :: r)) e (aft (f :: r))). apply dcomp_leaf; auto; [now apply ds_flags|repeat split].
    + assert (EX : existsb (fun it : item => noterm it && (i_label it =? k)) (items n) = false).
      { destruct (existsb _ _) eqn:E; auto. apply (bits_item noterm) in E as (x & Ix & Tx & Lx). exfalso. apply (ABS x Ix); auto. unfold noterm in Tx. now destruct (i_term x). }
      rewrite EX. cbn [negb]. destruct (absent_split c kvs INC q Wq n NIn TWn PN CL ABS) as (A & B & EI & HA & HB & LA & SB).
      unfold d_next. rewrite (ldr_h _ _ _ _ _ R). destruct (Nat.eqb_spec h 0) as [|_]; [lia|]. cbn [it2 d_setKey d_setPos d_atPrefix d_level]. rewrite AP, LV. fold it2.
      destruct (next_climb fp c NSS h s kvs SR RT r it2 P n k A B) as (d' & -> & RES); auto.
      { lia. } { constructor; auto. } { cbn [it2 d_setKey d_key]. now exists [k]. }
      cbn [bind]. eexists _, _. split; [reflexivity|]. destruct RES as [(A0 & V & DV)|(A0 & ST)]; [now apply A3|eapply A1; eauto].
Qed.

Lemma idle_reset it : iter_for s it -> idle (i_sparse (it_reset it)).
Proof. intros F. destruct (reset_idle fp c NSS h s SR it F) as [SL V AT LV K]. split; [exact SL|]. split; [exact V|]. left. auto. Qed.

Theorem seek_sound it0 : iter_for s it0 -> exists it b, it_seek s it0 q = Ok (it, b) /\ sound it.
Proof.
  intros F. unfold it_seek. assert (HN : ls_height (s_ls s) <> 0).
  { rewrite (lsr_height _ _ _ _ _ _ _ (sr_ls fp c NSS h s SR)). destruct NSS; [discriminate|cbn; lia]. }
  apply Nat.eqb_neq in HN. rewrite HN. cbn [andb]. pose proof (idle_reset it0 F) as SI. pose proof (reset_idle fp c NSS h s SR it0 F) as SI0. pose proof (reset_dlen fp c NSS h s SR it0 F) as DL.
  set (rs := it_reset it0) in *. unfold d_seek. assert (EH : ld_height (s_ld s) = h) by apply (ldr_h _ _ _ _ _ (sr_ld fp c NSS h s SR)). rewrite EH.
  assert (TR : topn [] [] (mknode kvs 0)) by (split; reflexivity). destruct (root_npath kvs _ _ TR) as [NP0 PD0].
  assert (N0 : nid 0 [] = 0) by reflexivity. 
  destruct (dseek_any h (d_setLevel (i_dense rs) 0) [] [] (mknode kvs 0)) as (d & b & E & RES); auto; try reflexivity; try exact Logic.I.
  { rewrite NP0. now exists q. }
  cbn [length] in E. rewrite N0, PD0 in E. rewrite E. cbn [bind]. clear E.
  destruct RES as [pre ST|pre e post DC|V DV|R0 PZ n0 K0 T0 LH DB DSe SN SD PR].
  - assert (FL : d_valid d = true /\ d_search d = true /\ d_isComplete d = d_left d).
    { destruct ST as (mid & post & ST). destruct ST as [f r e D HC G AP (V & S & LL & RR)|f r t e D EA Tt G AP (V & S & LL & RR)|f r D Lr HC AP (V & S & LL & RR) SN SD];
      unfold d_isComplete; rewrite S, LL, RR; auto. }
    destruct FL as (V & S & IC). rewrite V, IC, S. cbn [negb orb].
    destruct (after_l d (i_sparse rs) pre ST SI) as (it & E & A). rewrite V in E. cbn [negb] in E.
    destruct (d_left d).
    + apply Ok_eq in E. rewrite E. eauto.
    + cbn [negb]. rewrite E. cbn [bind]. eauto.
  - destruct (dcomp_flags _ _ _ _ _ _ _ DC) as (V & IC & _ & _). rewrite V, IC. cbn [negb orb]. eexists _, _. split; [reflexivity|]. eapply so_d; eauto.
  - rewrite V. cbn [negb orb]. eexists _, _. split; [reflexivity|]. now apply dies_sound.
  - destruct (dbase_valid _ _ _ _ _ DB) as [V IC]. rewrite V, IC, DSe. cbn [negb orb]. unfold passToSparse. cbn [i_sparse i_dense]. rewrite SN, SD.
    pose proof (top_wf NSS kvs linked wf RT _ _ _ K0 T0) as Wn.
    destruct (seek_safe fp c NSS h s kvs SR RT CO LO q (i_sparse rs) (nid h PZ) (tn_pd n0)) as (p & b' & -> & SD' & [ST|I]); try apply SI0.
    { eapply top_gnode; eauto. } { destruct PR as (x & ->). rewrite app_length, (npath_length _ Wn). lia. }
    + cbn [bind]. pose proof ST as (_ & PV & _). rewrite PV. cbn [negb bind]. eexists _, _. split; [reflexivity|]. apply (so_s _ R0 PZ n0); auto.
    + cbn [bind]. destruct (idle_slen _ I) as [_ ->]. cbn [negb]. destruct (incr_sound d p R0 PZ n0 K0 T0 LH DB I) as (it & -> & SO). cbn [bind]. eauto.
Qed.
End Q.

Lemma sound_for it : sound it -> iter_for s it.
Proof.
  intros SO. assert (X : slen (i_sparse it) /\ dlen h (i_dense it)).
  { destruct SO as [pre e post D I|R0 PZ n0 K0 T0 LH DB ST SD|X].
    - split; [apply I|]. destruct D as [f r e D|f r t e D]; apply (ds_len _ _ _ _ _ _ D).
    - split; [apply ST|]. destruct R0; cbn [SurfIterTop.dbase] in DB; [apply DB|apply (ds_len _ _ _ _ _ _ (proj1 DB))].
    - split; apply X. }
  destruct X as [[S1 S2 S3] [D1 D2]]. assert (EH : ld_height (s_ld s) = h) by apply (ldr_h _ _ _ _ _ (sr_ld fp c NSS h s SR)). pose proof (sparse_lvls fp c NSS h s SR) as EL. constructor; congruence.
Qed.

Lemma first_sound it : iter_for s it -> 0 < h -> exists it', it_seekToFirst s it = Ok it' /\ sound it'.
Proof.
  intros F H0. unfold it_seekToFirst. assert (EH : ld_height (s_ld s) = h) by apply (ldr_h _ _ _ _ _ (sr_ld fp c NSS h s SR)). rewrite EH.
  destruct (Nat.ltb_spec 0 h); [|lia]. destruct (first_split fp c NSS h s kvs SR RT [] [] [] (mknode kvs 0)) as (A & b & B & EI & Tb & TA & _); [exact Logic.I|split; reflexivity|].
  destruct (first_append fp c NSS h s kvs SR RT (i_dense (it_reset it)) [] [] (mknode kvs 0) A b B) as (d & E & D & AP); auto.
  { exact Logic.I. } { split; reflexivity. } { eapply reset_dlen; eauto. } { exact Logic.I. }
  change (SurfGet2.nid NSS (length (@nil frame)) []) with 0 in E. cbn [Nat.mul Nat.ltb Nat.leb] in E. rewrite E. cbn [bind].
  destruct (moveLeft_spec fp c NSS h s kvs SR RT d _ _ D AP) as (d' & -> & ST). cbn [bind].
  destruct (after_l d' _ _ ST (idle_reset it F)) as (it' & E' & A').
  assert (V : d_valid d' = true). { destruct ST as (mid & p & ST). destruct ST as [? ? ? ? ? ? ? (V & _)|? ? ? ? ? ? ? ? ? (V & _)|? ? ? ? ? ? (V & _)]; exact V. }
  rewrite V in E'. exists it'. split; [exact E'|exact A'].
Qed.
Lemma last_sound it : iter_for s it -> 0 < h -> exists it', it_seekToLast s it = Ok it' /\ sound it'.
Proof.
  intros F H0. unfold it_seekToLast. assert (EH : ld_height (s_ld s) = h) by apply (ldr_h _ _ _ _ _ (sr_ld fp c NSS h s SR)). rewrite EH.
  destruct (Nat.ltb_spec 0 h); [|lia]. destruct (last_root_all fp c NSS h s kvs SR RT) as (A & b & EI & Tb).
  destruct (setToLast_spec fp c NSS h s kvs SR RT (i_dense (it_reset it)) A b) as (d & -> & D & AP); auto. { eapply reset_dlen; eauto. } cbn [bind].
  destruct (moveRight_spec fp c NSS h s kvs SR RT d _ _ D AP) as (d' & -> & ST). cbn [bind].
  destruct (after_r d' _ _ ST (idle_reset it F)) as (it' & E' & A').
  assert (V : d_valid d' = true). { destruct ST as (p & mid & ST). destruct ST as [? ? ? ? ? ? ? (V & _)|? ? ? ? ? ? ? ? ? (V & _)|? ? ? ? ? ? (V & _)]; exact V. }
  rewrite V in E'. exists it'. split; [exact E'|exact A'].
Qed.

(** ** Key, Value, Compare *)
Lemma stands_key sp : stands sp -> exists k, p_Key sp = Ok k.
Proof.
  intros ((SF & K) & _). unfold p_Key. destruct (p_atTerm sp); [|eauto]. assert (L : 1 <= length (p_key sp)) by (rewrite K; apply (sf_pl _ _ _ _ SF); lia).
  unfold sub_chk. destruct (Nat.leb_spec 1 (length (p_key sp))); [|lia]. cbn [bind]. eexists. apply slice_firstn. lia.
Qed.
Lemma stands_pos sp : stands sp -> idx (p_pos sp) (p_level sp) = Ok (nth (p_level sp) (p_pos sp) 0).
Proof. intros ((SF & _) & _). pose proof (sf_k _ _ _ _ SF). destruct (sf_len _ _ _ _ SF). apply idx_Ok. apply nth_error_nth'. lia. Qed.
Lemma base_len it R0 PZ n0 : pok R0 -> topn R0 PZ n0 -> length R0 = h -> dbase (i_dense it) R0 -> d_Key (i_dense it) = Ok (npath n0) /\ length (npath n0) = tn_pd n0.
Proof. intros K0 T0 LH DB. split; [apply (dbase_key fp c NSS h s kvs SR RT _ _ _ _ K0 T0 LH DB)|]. apply npath_length. apply (top_wf NSS kvs linked wf RT _ _ _ K0 T0). Qed.

Lemma sound_show it : sound it -> it_valid it = true -> exists k v, it_key it = Ok k /\ it_value s it = Ok v.
Proof.
  intros [pre e post D I|R0 PZ n0 K0 T0 LH DB ST SD|X] V.
  - assert (A : At NSS h kvs (fun _ _ => True) it pre e post) by (apply at_d; auto; apply (idle_slen _ I)). destruct (at_show fp c NSS h s kvs SR RT LO INC NI _ _ _ _ _ A) as [-> ->]. eauto.
  - unfold it_key, it_value. destruct (base_len it R0 PZ n0 K0 T0 LH DB) as [-> _]. cbn [bind]. destruct (dbase_valid _ _ _ _ _ DB) as [_ ->]. destruct (stands_key _ ST) as (k & ->). cbn [bind].
    unfold p_Value. rewrite (stands_pos _ ST). cbn [bind]. destruct ST as (_ & _ & [(sp & -> & (v & EV) & _)]). cbn [bind]. eauto.
  - rewrite (dead_invalid _ _ _ _ X) in V. discriminate.
Qed.
End Safe2.
