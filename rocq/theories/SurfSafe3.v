(** * Call sequences, and range queries, always return. *)
From Coq Require Import Sorted.
From Verif Require Import Base BitsModel BitsFacts VecModel VecProofs VecProofs2 SurfModel SurfTrie SurfSuffix SurfBuild SurfDense SurfEnc SurfBuildTop SurfGet SurfGet2 SurfSpec SurfWalk SurfTop SurfSuffix3 SurfIter SurfIterSpec SurfIterPath SurfIterDense SurfIterSparse SurfIterTop SurfIterMain SurfIterSeek SurfIterSeek2 SurfIterPrev SurfIterPrev2 SurfIterPrev3 SurfIterCmp SurfIterCursor SurfIterZero SurfSafeSpec SurfSafe SurfSafe2.
Ltac Zify.zify_post_hook ::= Z.div_mod_to_equations.

(** The arrays of the sparse iterator keep their lengths. *)
Definition same_len (a b : sparseIter) : Prop := length (p_pos a) = length (p_pos b) /\ length (p_node a) = length (p_node b) /\ length (p_plen a) = length (p_plen b).
Lemma append_len ls a label pos n a' : p_append ls a label pos n = Ok a' -> same_len a' a.
Proof.
  intros H. unfold p_append in H. apply bind_ok in H as (pid & E1 & H). apply bind_ok in H as (px & E2 & H). apply bind_ok in H as (ps & E3 & H).
  apply bind_ok in H as (bs & E4 & H). apply bind_ok in H as (pl & E5 & H). apply bind_ok in H as (ns & E6 & H). apply Ok_eq in H. subst a'.
  apply upd_ok_len in E3 as [_ N3]. apply upd_ok_len in E5 as [_ N5]. apply upd_ok_len in E6 as [_ N6]. repeat split; auto.
Qed.
Lemma finish_len ls a label pos a' : p_finish ls a label pos = Ok a' -> same_len a' a.
Proof. intros H. unfold p_finish in H. apply bind_ok in H as (t & _ & H). apply Ok_eq in H. subst a'. destruct t; repeat split. Qed.
Lemma down_len cp ls todo : forall a pos a', p_down_loop cp todo ls a pos = Ok a' -> same_len a' a.
Proof.
  induction todo as [|todo IH]; intros a pos a' H; cbn [p_down_loop] in *; [discriminate|].
  apply bind_ok in H as (n & _ & H). apply bind_ok in H as (p & _ & H). apply bind_ok in H as (lb & _ & H). apply bind_ok in H as (hc & _ & H). apply bind_ok in H as (a2 & E & H).
  apply append_len in E as (X1 & X2 & X3). cbn [p_setLevel p_pos p_node p_plen] in X1, X2, X3. assert (Y : same_len a' a2) by (destruct (negb hc); [eapply finish_len; eauto|eapply IH; eauto]).
  destruct Y as (Y1 & Y2 & Y3). repeat split; congruence.
Qed.
Lemma move_len cp ls a a' : p_move cp ls a = Ok a' -> same_len a' a.
Proof.
  intros H. unfold p_move in H. apply bind_ok in H as (a1 & E & H). assert (X : same_len a1 a).
  { destruct (p_key a); [|apply Ok_eq in E; subst; repeat split]. apply bind_ok in E as (p & _ & E). apply bind_ok in E as (lb & _ & E). eapply append_len; eauto. }
  apply bind_ok in H as (p & _ & H). apply bind_ok in H as (lb & _ & H). apply bind_ok in H as (hc & _ & H).
  assert (Y : same_len a' a1) by (destruct (negb hc); [eapply finish_len; eauto|eapply down_len; eauto]).
  destruct X as (X1 & X2 & X3), Y as (Y1 & Y2 & Y3). repeat split; congruence.
Qed.
Lemma sparse_for s it f it' : (forall p p', f p = Ok p' -> same_len p' p) -> iter_for s it -> it_sparse (it_reset it) f = Ok it' -> iter_for s it'.
Proof.
  intros H F E. unfold it_sparse in E. apply bind_ok in E as (p & E & E2). apply Ok_eq in E2. subst it'. apply H in E as (X1 & X2 & X3). destruct F as [F1 F2 F3 F4 F5].
  cbn [it_reset i_sparse p_reset p_pos p_node p_plen] in X1, X2, X3. constructor; cbn [i_dense i_sparse it_reset d_reset d_pos d_plen]; congruence.
Qed.
Lemma zero_for s it it' : ld_height (s_ld s) = 0 -> iter_for s it -> it_seekToFirst s it = Ok it' \/ it_seekToLast s it = Ok it' -> iter_for s it'.
Proof.
  intros H0 F E. assert (R : iter_for s (it_reset it)) by (destruct F; constructor; auto). unfold it_seekToFirst, it_seekToLast in E. rewrite H0 in E. change (0 <? 0) with false in E. cbv iota in E.
  destruct (0 <? ls_height (s_ls s)); [|destruct E as [E|E]; apply Ok_eq in E; subst it'; exact R].
  destruct E as [E|E]; (eapply sparse_for; [|exact F|exact E]); intros p p' Hp; cbv beta in Hp; apply bind_ok in Hp as (p1 & E1 & Hp); apply move_len in Hp as (Y1 & Y2 & Y3).
  - unfold p_setToFirst in E1. apply bind_ok in E1 as (ps & U & E1). apply bind_ok in E1 as (l & _ & E1). apply Ok_eq in E1. subst p1. apply upd_ok_len in U as [_ U].
    cbn [p_setKey p_setPos p_pos p_node p_plen] in Y1, Y2, Y3. repeat split; congruence.
  - unfold p_setToLast in E1. apply bind_ok in E1 as (lp & _ & E1). apply bind_ok in E1 as (ps & U & E1). apply bind_ok in E1 as (l & _ & E1). apply Ok_eq in E1. subst p1. apply upd_ok_len in U as [_ U].
    cbn [p_setKey p_setPos p_pos p_node p_plen] in Y1, Y2, Y3. repeat split; congruence.
Qed.

Section Safe3.
Variable fp : bytes -> N.
Variable c : config.
Variables (NSS : list (list tnode)) (h : nat) (s : surf) (kvs : list kv).
Hypothesis SR : surf_rep fp c NSS h s.
Hypothesis RT : nth_error NSS 0 = Some [mknode kvs 0].
Hypothesis CO : cfg_ok c.
Hypothesis LO : Forall (leaf_ok c) (leaves (concat NSS)).
Hypothesis INC : increasing (map fst kvs).
Hypothesis NI : Forall (ninv kvs) (concat NSS).
Notation ld := (s_ld s).
Notation ls := (s_ls s).
Notation pok := (pok kvs).
Notation topn := (topn kvs).
Notation DS := (DS NSS h kvs).
Notation linked := (dw_linked fp c NSS h s SR).
Notation wf := (dw_wf fp c NSS h s SR).
Notation W0 := (root_wf0 fp c NSS h s kvs SR RT).
Notation sound := (sound NSS h s kvs).
Notation dcomp := (dcomp NSS h kvs).
Notation root := (mknode kvs 0).

(** ** Compare *)
Lemma dcomp_cmp d pre e post q : dcomp d pre e post -> exists cmp, d_compare ld d q = Ok cmp.
Proof.
  intros D. assert (IC : d_isComplete d = true) by (eapply dcomp_flags; eauto).
  assert (X : exists k pos j, d_Key d = Ok k /\ idx (d_pos d) (d_level d) = Ok pos /\ ld_suffixPos ld pos (d_atPrefix d) = Ok j /\ forall lv, exists cmp, suffix_compare (ld_suffixes ld) q j lv = Ok cmp).
  { destruct D as [f r e D HC G AP FL|f r t e D EA Tt G AP FL]; pose proof (ds_pok _ _ _ _ _ _ D) as PK; pose proof PK as (PK1 & T1 & EI);
    destruct (dense_at fp c NSS h s kvs SR RT _ _ _ PK1 T1 (ds_h _ _ _ _ _ _ D)) as (D1 & D2 & EC & LD & R & W & ED);
    assert (LOD : forall y, In y (leaves (D1 ++ f_n f :: D2)) -> leaf_ok c y) by (intros y Hy; rewrite <- EC in Hy; rewrite Forall_forall in LO; apply LO; unfold leaves in *; rewrite <- (firstn_skipn h NSS), concat_app, flat_map_app, filter_app; apply in_or_app; now left);
    pose proof (ds_slots _ _ _ _ _ _ D) as ((S1 & _) & _); eexists _, _, _.
    - split; [apply (show_leaf fp c NSS h s kvs SR RT LO INC NI d f r e D HC G AP)|]. rewrite (ds_level _ _ _ _ _ _ D). split; [apply idx_Ok; exact S1|]. rewrite AP, <- LD. unfold flab.
      split; [apply (d_suffixPos_leaf fp c ld h D1 D2 (f_n f) R W (f_A f) (f_it f) (f_B f)); auto; apply (ds_noterm _ _ _ _ _ _ D)|].
      assert (NE : nth_error (leaves (D1 ++ f_n f :: D2)) (length (filter leafb (flat_map items D1 ++ f_A f))) = Some (f_it f)) by (apply (leaves_split D1 D2 (f_n f) (f_A f) (f_it f) (f_B f)); auto).
      intros lv. eapply (cmp_total fp c CO); [apply (ldr_suf _ _ _ _ _ R)|exact NE|]. apply (LOD (f_it f)). eapply nth_error_In; eauto.
    - split; [apply (show_term fp c NSS h s kvs SR RT LO INC NI d f r t e D EA Tt G AP)|]. rewrite EA in EI. cbn [app] in EI. assert (It : In t (items (f_n f))) by (rewrite EI; now left).
      assert (HT : hasc t = false) by (destruct (hasc t) eqn:HT; auto; rewrite (item_hasc_noterm _ _ It HT) in Tt; discriminate).
      rewrite (ds_level _ _ _ _ _ _ D). split; [apply idx_Ok; exact S1|]. rewrite AP, <- LD. unfold flab.
      split; [apply (d_suffixPos_term1 fp c ld h D1 D2 (f_n f) R W t (f_it f) (f_B f)); auto|].
      assert (NE : nth_error (leaves (D1 ++ f_n f :: D2)) (length (filter leafb (flat_map items D1 ++ []))) = Some t) by (apply (leaves_split D1 D2 (f_n f) [] t (f_it f :: f_B f)); auto).
      rewrite app_nil_r in NE. intros lv. eapply (cmp_total fp c CO); [apply (ldr_suf _ _ _ _ _ R)|exact NE|]. apply (LOD t). eapply nth_error_In; eauto. }
  destruct X as (k & pos & j & EK & EP & ES & CM). unfold d_compare. rewrite EK. cbn [bind]. rewrite EP. cbn [bind]. rewrite ES. cbn [bind]. rewrite IC.
  repeat (match goal with |- context [if ?b then _ else _] => destruct b end; try (eexists; reflexivity)). apply CM.
Qed.
Lemma sound_cmp it q : sound it -> it_valid it = true -> exists cmp, it_compare s it q = Ok cmp.
Proof.
  intros [pre e post D I|R0 PZ n0 K0 T0 LH DB ST SD|X] V; unfold it_compare.
  - destruct (dcomp_cmp _ _ _ _ q D) as (cmp & ->). cbn [bind]. destruct (dcomp_flags _ _ _ _ _ _ _ D) as (_ & -> & _). cbn [orb]. eauto.
  - unfold d_compare. destruct (base_len fp c NSS h s kvs SR RT it R0 PZ n0 K0 T0 LH DB) as [-> NL]. cbn [bind]. destruct (dbase_valid _ _ _ _ _ DB) as [_ ->]. cbn [orb].
    assert (AP : d_atPrefix (i_dense it) = false). { destruct R0; cbn [dbase] in DB; decompose [and] DB; auto. } rewrite AP, andb_false_r.
    set (cmp := cmpZ _ _). destruct (Z.eqb_spec cmp 0) as [E0|E0]; cbn [negb].
    2: { cbn [bind]. destruct (Z.eqb_spec cmp 0); [congruence|]. cbn [negb]. eauto. }
    destruct (Nat.ltb_spec (length q) (length (npath n0))) as [L|L]; cbn [bind].
    { change (negb (1 =? 0)%Z) with true. cbn [bind]. eauto. }
    rewrite E0. change (negb (0 =? 0)%Z) with false. cbv iota. unfold p_compare. destruct (stands_key NSS h s _ ST) as (k & ->). cbn [bind]. rewrite SD, <- NL.
    destruct (Nat.ltb_spec (length q) (length (npath n0))); [lia|]. destruct (Nat.eqb (length (npath n0)) (length q)); [eauto|].
    unfold slice_from. destruct (Nat.leb_spec (length (npath n0)) (length q)); [|lia]. cbn [bind]. rewrite (stands_pos NSS h s _ ST). cbn [bind].
    destruct ST as (_ & _ & [(sp & -> & _ & CM)]). cbn [bind].
    repeat (match goal with |- context [if ?b then _ else _] => destruct b end; try (eexists; reflexivity)). apply CM.
  - rewrite (dead_invalid _ _ _ _ X) in V. discriminate.
Qed.

(** ** Where Prev panics *)
Lemma depth_root r : forall f, pok (f :: r) -> tn_d root <= tn_d (f_n f).
Proof.
  induction r as [|g r IH]; intros f (PK & T & EI); [destruct T as [_ ->]; lia|]. specialize (IH g PK). destruct (top_npath NSS kvs linked wf RT _ _ _ _ PK T) as [_ PD].
  pose proof (top_wf NSS kvs linked wf RT _ _ _ PK T) as Wn. pose proof (w_pd _ Wn). lia.
Qed.
Lemma common_root k : 2 <= length kvs -> In k (map fst kvs) -> (forall k', In k' (map fst kvs) -> is_prefix k k') -> length k = tn_d root.
Proof.
  intros L Ik PA. apply in_map_iff in Ik as (e & <- & Ie). destruct (node_term root e W0 L Ie) as (t & B & _ & _ & _ & FE).
  - intros e' He'. apply PA. now apply in_map.
  - rewrite FE. apply ndpath_length, W0.
Qed.
Notation keys := (map fst kvs).
Lemma root_shows it : sound it -> at_root NSS h kvs it -> 0 < h /\ shows_common keys it.
Proof.
  intros SO (f & t & e & DC & D & EA & Tt & AP). pose proof (ds_pok _ _ _ _ _ _ D) as PK. pose proof PK as (_ & T1 & EI). destruct T1 as [_ EN].
  destruct (dcomp_flags _ _ _ _ _ _ _ DC) as (V & IC & _). split; [pose proof (ds_h _ _ _ _ _ _ D); cbn in *; lia|].
  rewrite EA, EN in EI. cbn [app] in EI. destruct (item_term root t W0 ltac:(rewrite EI; now left) Tt) as (e0 & r0 & EK & G & FE & NE & _). change (tn_kvs root) with kvs in EK.
  split; [unfold it_valid; now rewrite V, IC|]. split; [rewrite map_length, EK; destruct r0; [congruence|cbn; lia]|].
  exists (ndpath root). split; [|split].
  - unfold it_key, d_Key. rewrite IC, AP, (ds_key _ _ _ _ _ _ D), EN, app_length. cbn [length]. unfold sub_chk. destruct (Nat.leb_spec 1 (length (ndpath root) + 1)); [|lia]. cbn [bind].
    rewrite slice_firstn by (rewrite app_length; cbn; lia). cbn [bind]. rewrite Nat.add_sub, firstn_app, firstn_all, Nat.sub_diag. cbn [firstn]. now rewrite app_nil_r.
  - rewrite <- FE. apply in_map. rewrite EK. now left.
  - intros k' Hk. destruct (in_map_fst _ _ Hk) as (v & Hv). apply (ndpath_prefix root (k', v) W0 Hv).
Qed.
Lemma shows_root it : sound it -> 0 < h -> shows_common keys it -> at_root NSS h kvs it.
Proof.
  intros SO H0 (V & L & k & EK & Ik & PA). rewrite map_length in L. pose proof (common_root k L Ik PA) as LK. destruct SO as [pre e post D I|R0 PZ n0 K0 T0 LH DB ST SD|X].
  - unfold it_key in EK. destruct (dcomp_flags _ _ _ _ _ _ _ D) as (_ & IC & _). rewrite IC in EK. pose proof D as D0. destruct D as [f r e D HC G AP FL|f r t e D EA Tt G AP FL];
      pose proof (ds_pok _ _ _ _ _ _ D) as PK; pose proof PK as (PK1 & T1 & EI); pose proof (top_wf NSS kvs linked wf RT _ _ _ PK1 T1) as Wn.
    + exfalso. unfold d_Key in EK. rewrite AP in EK. cbn [bind] in EK. apply Ok_eq in EK. rewrite <- EK, (ds_key _ _ _ _ _ _ D), app_length, (ndpath_length _ Wn) in LK. pose proof (depth_root _ _ PK). cbn [length] in LK. lia.
    + destruct r as [|g r]; [exists f, t, e; auto 6|]. exfalso. unfold d_Key in EK. rewrite AP, (ds_key _ _ _ _ _ _ D), app_length in EK. cbn [length] in EK. unfold sub_chk in EK.
      destruct (Nat.leb_spec 1 (length (ndpath (f_n f)) + 1)) in EK; [|lia]. cbn [bind] in EK. rewrite slice_firstn in EK by (rewrite app_length; cbn; lia). cbn [bind] in EK. apply Ok_eq in EK.
      rewrite Nat.add_sub, firstn_app, firstn_all, Nat.sub_diag in EK. cbn [firstn] in EK. rewrite app_nil_r in EK. rewrite <- EK, (ndpath_length _ Wn) in LK.
      pose proof (depth_root _ _ PK1). destruct (top_npath NSS kvs linked wf RT _ _ _ _ PK1 T1) as [_ PD]. pose proof (w_pd _ Wn). lia.
  - exfalso. unfold it_key in EK. destruct (base_len fp c NSS h s kvs SR RT it R0 PZ n0 K0 T0 LH DB) as [EQ NL]. rewrite EQ in EK. cbn [bind] in EK. destruct (dbase_valid _ _ _ _ _ DB) as [_ IC]. rewrite IC in EK.
    apply bind_ok in EK as (pk & _ & EK). apply Ok_eq in EK. rewrite <- EK, app_length, NL in LK. destruct R0 as [|g r]; [cbn in LH; lia|].
    destruct (top_npath NSS kvs linked wf RT _ _ _ _ K0 T0) as [_ PD]. pose proof (depth_root _ _ K0). lia.
  - rewrite (dead_invalid _ _ _ _ X) in V. discriminate.
Qed.

(** ** Sequences *)
Definition good (placed : bool) (it : iter) : Prop := if placed then sound it else h = 0 /\ iter_for s it /\ it_valid it = false.
Notation sound_for := (sound_for fp c NSS h s kvs SR).
Lemma good_for b it : good b it -> iter_for s it.
Proof. destruct b; cbn [good]; [apply sound_for|tauto]. Qed.
Lemma good_show b it : good b it -> it_valid it = true -> exists k v, it_key it = Ok k /\ it_value s it = Ok v.
Proof. destruct b; cbn [good]; [apply (sound_show fp c NSS h s kvs SR RT LO INC NI)|]. intros (_ & _ & ->). discriminate. Qed.

Lemma returns_good cs : forall b it, good b it -> allowed h b cs -> returns s keys it cs.
Proof.
  pose proof (ldr_h _ _ _ _ _ (sr_ld fp c NSS h s SR)) as EH.
  assert (NB : forall it c', c' <> IPrev -> ~ bad_call s keys it c') by (intros it c' N (E & _); contradiction).
  induction cs as [|cl cs IH]; intros b it G A; cbn [returns]; (split; [eapply good_show; eauto|]); auto. pose proof (good_for _ _ G) as F.
  destruct cl as [q| | | |]; cbn [allowed] in A.
  - right. split; [apply NB; discriminate|]. destruct A as [Wq A]. destruct (seek_sound fp c NSS h s kvs SR RT CO LO INC NI q Wq it F) as (it' & bb & E & SO). exists it'. cbn [icall_run]. rewrite E. cbn [bind]. split; [reflexivity|]. now apply (IH true).
  - right. split; [apply NB; discriminate|]. cbn [icall_run]. destruct (Nat.ltb_spec 0 h) as [H0|H0].
    + destruct (first_sound fp c NSS h s kvs SR RT CO LO it F H0) as (it' & E & SO). exists it'. split; [exact E|]. now apply (IH true).
    + assert (h = 0) by lia. assert (EH0 : ld_height (s_ld s) = 0) by congruence. assert (SR0 : surf_rep fp c NSS 0 s) by congruence. destruct (first_zero fp c NSS s kvs SR0 RT it F) as (it' & E & NV).
      exists it'. split; [exact E|]. apply (IH false); auto. split; [auto|]. split; [|exact NV]. eapply zero_for; eauto.
  - right. split; [apply NB; discriminate|]. cbn [icall_run]. destruct (Nat.ltb_spec 0 h) as [H0|H0].
    + destruct (last_sound fp c NSS h s kvs SR RT CO LO it F H0) as (it' & E & SO). exists it'. split; [exact E|]. now apply (IH true).
    + assert (h = 0) by lia. assert (EH0 : ld_height (s_ld s) = 0) by congruence. assert (SR0 : surf_rep fp c NSS 0 s) by congruence. destruct (last_zero fp c NSS s kvs SR0 RT it F) as (it' & E & NV).
      exists it'. split; [exact E|]. apply (IH false); auto. split; [auto|]. split; [|exact NV]. eapply zero_for; eauto.
  - right. split; [apply NB; discriminate|]. destruct A as [-> A]. destruct (next_sound fp c NSS h s kvs SR RT CO LO it G) as (it' & E & SO). exists it'. split; [exact E|]. now apply (IH true).
  - destruct A as [-> A]. cbn [good] in G. destruct (prev_sound fp c NSS h s kvs SR RT CO LO it G) as [(AR & E)|(NA & it' & E & SO)].
    + left. split; [|exact E]. split; [reflexivity|]. rewrite EH. now apply root_shows.
    + right. split; [|exists it'; split; [exact E|]; now apply (IH true)]. intros (_ & H0 & SC). rewrite EH in H0. apply NA. now apply shows_root.
Qed.
Lemma overlap_returns start stop ie : wf_bytes start = true -> exists b, hasOverlap s start stop ie = Ok b.
Proof.
  intros Ws. unfold hasOverlap. destruct (_ && _)%bool; [eauto|]. destruct (seek_sound fp c NSS h s kvs SR RT CO LO INC NI start Ws (newIterator s) (new_iter_for s)) as (it & b & -> & SO). cbn [bind].
  destruct (it_valid it) eqn:V; cbn [negb]; [|eauto]. destruct (sound_cmp it stop SO V) as (cmp & ->). cbn [bind]. eauto.
Qed.
End Safe3.

Section Main.
Variables (fp : bytes -> N) (vs h r : nat) (keys vals : list bytes) (hint : Z) (s : surf).
Hypothesis V : valid_input vs h r keys vals.
Hypothesis B : built fp vs h r keys vals hint s.
Notation kvs := (combine keys vals).
Notation NSS := (trie kvs).

Theorem calls_return cs : allowed (ld_height (s_ld s)) true cs -> returns s keys (newIterator s) cs.
Proof.
  intros A. destruct (built_rep fp vs h r keys vals hint s V B) as (cut & SR & W & CO & LO & MF & RT).
  assert (INC : increasing (map fst kvs)) by (rewrite MF; apply V).
  assert (NI : Forall (ninv kvs) (concat NSS)) by (apply trie_ninv; auto).
  rewrite (ldr_h _ _ _ _ _ (sr_ld _ _ _ _ _ SR)) in A. rewrite <- MF at 1. apply (returns_good fp (mkcfg vs h r) NSS cut s kvs SR RT CO LO INC NI cs true); auto.
  apply so_x. destruct (cur_new fp vs h r keys vals s cut SR) as [[_ D]|(? & ? & ? & E & _)]; [exact D|discriminate].
Qed.
Theorem overlap_total start stop ie : wf_bytes start = true -> exists b, hasOverlap s start stop ie = Ok b.
Proof.
  intros Ws. destruct (built_rep fp vs h r keys vals hint s V B) as (cut & SR & W & CO & LO & MF & RT).
  assert (INC : increasing (map fst kvs)) by (rewrite MF; apply V).
  assert (NI : Forall (ninv kvs) (concat NSS)) by (apply trie_ninv; auto).
  apply (overlap_returns fp (mkcfg vs h r) NSS cut s kvs SR RT CO LO INC NI). exact Ws.
Qed.
End Main.
