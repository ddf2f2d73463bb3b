(** * Going back in the dense part, for every trie. *)
From Coq Require Import Sorted.
From Verif Require Import Base BitsModel BitsFacts VecModel VecProofs VecProofs2 SurfModel SurfTrie SurfSuffix SurfBuild SurfDense SurfEnc SurfBuildTop SurfGet SurfGet2 SurfSpec SurfWalk SurfTop SurfIter SurfIterPath SurfIterDense.
Ltac Zify.zify_post_hook ::= Z.div_mod_to_equations.

Section Bits.
Variable fp : bytes -> N.
Variable c : config.
Variables (ld : loudsDense) (h : nat) (D1 D2 : list tnode) (n : tnode).
Hypothesis R : ld_rep fp c ld h (D1 ++ n :: D2).
Hypothesis W : Forall nwf (D1 ++ n :: D2).
Notation BITS := (flat_map (fun m => dlab (items m)) (D1 ++ n :: D2)).
Notation base := (length D1 * 256).

(** No item before label [k] in the node, but a set bit after position 0 in some earlier node. *)
Lemma prev_pos_earlier k E1 m E2 x : k < 256 -> (forall x, In x (items n) -> i_term x = false -> k <= i_label x) ->
  D1 = E1 ++ m :: E2 -> In x (items m) -> i_term x = false -> 0 < length E1 * 256 + i_label x ->
  exists q, ld_prevPos ld (base + k) = Ok (Some q) /\ Nat.ltb (q / 256) ((base + k) / 256) = true.
Proof.
  intros L H ED Hx T PZ. unfold ld_prevPos. pose proof (bits_len_n D1 D2 n).
  destruct (distanceToPrevSetBit_correct _ _ (base + k) (label_bv fp c ld h D1 D2 n R)) as (d & -> & D); [lia|]. cbn [bind].
  assert (LX : i_label x < 256). { apply (label_byte m); auto. apply Forall_app in W as [W1 _]. rewrite Forall_forall in W1. apply W1. rewrite ED. apply in_or_app. right. now left. }
  assert (BT : nth (length E1 * 256 + i_label x) BITS false = true).
  { rewrite ED, <- app_assoc. cbn [app]. rewrite (row_read E1 (E2 ++ n :: D2) m (fun m => dlab (items m))) by (auto using dlab_length).
    unfold dlab. rewrite nth_map_seq by auto. apply (bits_item noterm). exists x. unfold noterm. rewrite T. auto. }
  assert (LD : length D1 = length E1 + S (length E2)) by (rewrite ED, app_length; reflexivity).
  destruct D as [(q & (N1 & N2 & N3) & ->)|(N & _)].
  - exists q. assert (LQ : length E1 * 256 + i_label x <= q).
    { destruct (Nat.lt_ge_cases q (length E1 * 256 + i_label x)); auto. rewrite N3 in BT by lia. discriminate. }
    destruct (Nat.leb_spec (base + k) (base + k - q)); [lia|]. split; [f_equal; f_equal; lia|].
    apply Nat.ltb_lt. destruct (Nat.lt_ge_cases q base) as [Lq|Lq]; [lia|].
    exfalso. replace q with (base + (q - base)) in N2 by lia. apply lbit_true in N2 as (y & X1 & X2 & X3); [|lia]. specialize (H y X1 X2). lia.
  - rewrite N in BT by lia. discriminate.
Qed.

(** ... or only the bit at position 0, which is then taken for none. *)
Lemma prev_pos_zero k m : k < 256 -> (forall x, In x (items n) -> i_term x = false -> k <= i_label x) ->
  D1 = [m] -> (forall x, In x (items m) -> i_term x = false -> i_label x = 0) -> ld_prevPos ld (base + k) = Ok None.
Proof.
  intros L H ED Z. unfold ld_prevPos. pose proof (bits_len_n D1 D2 n).
  destruct (distanceToPrevSetBit_correct _ _ (base + k) (label_bv fp c ld h D1 D2 n R)) as (d & -> & D); [lia|]. cbn [bind].
  destruct D as [(q & (N1 & N2 & _) & ->)|(_ & ->)].
  - destruct (Nat.lt_ge_cases q base) as [Lq|Lq].
    + assert (q = 0); [|subst q; destruct (Nat.leb_spec (base + k) (base + k - 0)); [reflexivity|lia]].
      rewrite ED in N2, Lq. cbn [length app] in N2, Lq. change q with (length (@nil tnode) * 256 + q) in N2. rewrite (row_read [] (n :: D2) m (fun m => dlab (items m))) in N2; [|intros; apply dlab_length|lia].
      unfold dlab in N2. rewrite nth_map_seq in N2 by lia. apply bits_item in N2 as (x & X1 & X2 & X3). rewrite <- X3. apply Z; auto. unfold noterm in X2. now destruct (i_term x).
    + exfalso. replace q with (base + (q - base)) in N2 by lia. apply lbit_true in N2 as (y & X1 & X2 & X3); [|lia]. specialize (H y X1 X2). lia.
  - destruct (Nat.leb_spec (base + k) (base + k + 1)); [reflexivity|lia].
Qed.
End Bits.

(** The only label of the root is 0, next to a terminator. *)
Definition zero_only (kvs : list kv) : Prop := exists t x, items (mknode kvs 0) = [t; x] /\ i_term t = true /\ i_term x = false /\ i_label x = 0.
(** No labelled item before the item of the frame. *)
Definition no_label (f : frame) : Prop := f_A f = [] \/ exists t, f_A f = [t] /\ i_term t = true.
(** Climbing from the item of [f] runs off the keys. *)
Fixpoint dies (kvs : list kv) (f : frame) (r : list frame) : Prop :=
  match r with
  | [] => no_label f \/ exists A x, f_A f = A ++ [x] /\ i_term x = false /\ i_label x = 0
  | g :: r' => (r' = [] /\ zero_only kvs /\ no_label f) \/ (f_A f = [] /\ dies kvs g r')
  end.

Section Walk.
Variable fp : bytes -> N.
Variable c : config.
Variables (NSS : list (list tnode)) (h : nat) (s : surf) (kvs : list kv).
Hypothesis SR : surf_rep fp c NSS h s.
Hypothesis RT : nth_error NSS 0 = Some [mknode kvs 0].
Notation ld := (s_ld s).
Notation nid := (nid NSS).
Notation topn := (topn kvs).
Notation pok := (pok kvs).
Notation DS := (DS NSS h kvs).
Notation dstopR := (dstopR NSS h kvs).
Notation dlen := (dlen h).
Notation dslots := (dslots NSS).
Notation dw_linked := (dw_linked fp c NSS h s SR).
Notation dw_wf := (dw_wf fp c NSS h s SR).
Notation dies := (dies kvs).

Lemma no_label_not f A x : f_A f = A ++ [x] -> i_term x = false -> ~ no_label f.
Proof.
  intros E T [E'|(t & E' & Tt)]; rewrite E' in E.
  - destruct A; discriminate.
  - destruct A as [|a A]; [cbn in E; inversion E; congruence|]. cbn in E. inversion E. destruct A; discriminate.
Qed.

Lemma root_cases g P n : pok [g] -> topn [g] P n -> (exists x, In x (items (mknode kvs 0)) /\ i_term x = false /\ 0 < i_label x) \/ zero_only kvs.
Proof.
  intros PK (HC & _). pose proof (frame_in kvs g [] PK) as Ig. destruct PK as (_ & (_ & EN) & EI).
  pose proof (top_wf NSS kvs dw_linked dw_wf RT [] [] (mknode kvs 0) Logic.I (conj eq_refl eq_refl)) as Wn.
  assert (TW : 2 <= length (items (mknode kvs 0))).
  { apply items_two; auto. rewrite EN in Ig. unfold hasc in HC. apply Nat.ltb_lt in HC.
    pose proof (items_kvs (tn_d (mknode kvs 0)) (tn_kvs (mknode kvs 0))) as K. fold (items (mknode kvs 0)) in K. rewrite <- K.
    apply in_split in Ig as (A & B & ->). rewrite map_app, concat_app. cbn [map concat]. rewrite !app_length. lia. }
  destruct (first_items _ Wn TW) as [(t & b & B & E & Tt & Tb & _)|(b & B & E & Tb & _)].
  - destruct (Nat.eq_dec (i_label b) 0) as [Z|NZ]; [|left; exists b; rewrite E; split; [right; now left|split; [exact Tb|lia]]].
    destruct B as [|y B]; [right; exists t, b; auto|left]. destruct (items_order _ [t] b (y :: B) Wn E Tb) as [_ OB]. destruct (OB y ltac:(now left)) as [Ty Ly].
    exists y. rewrite E. split; [right; right; now left|]. split; [exact Ty|lia].
  - left. destruct B as [|y B]; [rewrite E in TW; cbn in TW; lia|]. destruct (items_order _ [] b (y :: B) Wn E Tb) as [_ OB]. destruct (OB y ltac:(now left)) as [Ty Ly].
    exists y. rewrite E. split; [right; now left|]. split; [exact Ty|lia].
Qed.

(** What [prevPos] finds below the first labelled item of a node other than the root. *)
Lemma prev_pos_climb g r f : pok (f :: g :: r) -> S (length r) < h -> i_term (f_it f) = false -> no_label f ->
  (r = [] /\ zero_only kvs /\ ld_prevPos ld (nid (S (length r)) (f_P f) * 256 + flab f) = Ok None) \/
  (~ (r = [] /\ zero_only kvs) /\ exists q, ld_prevPos ld (nid (S (length r)) (f_P f) * 256 + flab f) = Ok (Some q) /\
     Nat.ltb (q / 256) ((nid (S (length r)) (f_P f) * 256 + flab f) / 256) = true).
Proof.
  intros PK L NT NL. pose proof PK as (PK1 & T1 & EI). destruct (dense_at fp c NSS h s kvs SR RT _ _ _ PK1 T1 L) as (D1 & D2 & _ & LD & R & W & ED).
  pose proof (top_wf NSS kvs dw_linked dw_wf RT _ _ _ PK1 T1) as Wn.
  destruct (items_order _ _ _ _ Wn EI NT) as [OA OB]. pose proof (frame_lab NSS kvs dw_linked dw_wf RT f _ PK) as LF.
  assert (HB : forall x, In x (items (f_n f)) -> i_term x = false -> flab f <= i_label x).
  { intros x Hx Tx. rewrite EI in Hx. apply in_app_or in Hx as [Hx|[<-|Hx]]; [|unfold flab; lia|destruct (OB x Hx); unfold flab; lia].
    destruct NL as [NL|(t & NL & Tt)]; rewrite NL in Hx; [destruct Hx|]. destruct Hx as [<-|[]]. congruence. }
  cbn [length] in LD, ED, L. rewrite <- LD. pose proof PK1 as (PK2 & T2 & EI2). destruct T1 as (HC & EN & EP).
  pose proof (frame_in kvs g r PK1) as Ig. pose proof (item_hasc_noterm _ _ Ig HC) as Tg.
  destruct (top_at NSS kvs dw_linked RT r PK2 _ _ T2) as (Q & AT). unfold at_node in AT.
  assert (EC : concat (firstn (S (length r)) NSS) = (concat (firstn (length r) NSS) ++ f_P g) ++ f_n g :: Q).
  { rewrite <- app_assoc. clear -AT. revert AT. generalize (f_P g ++ f_n g :: Q) as z. generalize (length r) as k. induction NSS as [|a l IH]; intros k z H; [destruct k; discriminate|].
    destruct k; cbn in H; [inversion H; cbn; now rewrite app_nil_r|]. change (firstn (S (S k)) (a :: l)) with (a :: firstn (S k) l). change (firstn (S k) (a :: l)) with (a :: firstn k l).
    cbn [concat]. rewrite (IH k z H). now rewrite app_assoc. }
  rewrite EC, <- app_assoc in ED. cbn [app] in ED.
  destruct r as [|g' r].
  - cbn [length firstn concat app] in *. pose proof T2 as [EPg ENg]. rewrite EPg in *. cbn [app] in *.
    destruct (root_cases g (f_P f) (f_n f) PK1) as [(x & X1 & X2 & X3)|Z]; [repeat split; auto| |].
    + right. split. * intros [_ (t & y & E & Tt & Ty & Ly)]. rewrite E in X1. destruct X1 as [<-|[<-|[]]]; [congruence|lia].
      * apply (prev_pos_earlier fp c ld h D1 D2 (f_n f) R W (flab f) [] (f_n g) (Q ++ f_P f) x LF HB ED); auto. now rewrite ENg.
    + left. split; auto. split; auto. destruct Z as (t & y & E & Tt & Ty & Ly).
      apply (prev_pos_zero fp c ld h D1 D2 (f_n f) R (flab f) (f_n g) LF HB).
      * rewrite ED. rewrite RT in AT. inversion AT as [[E0 E1]]. f_equal. cbn [app]. rewrite EP. unfold kids. rewrite EPg. cbn [flat_map app].
        rewrite ENg, E in EI2. assert (EA : f_A g = [t]).
        { destruct (f_A g) as [|a [|a' A]]; cbn in EI2; inversion EI2; subst; auto; [congruence|]. destruct A; discriminate. }
        rewrite EA. cbn [filter]. destruct (hasc t) eqn:HT; auto. rewrite (item_hasc_noterm (mknode kvs 0) t) in Tt; [discriminate| |exact HT]. rewrite E. now left.
      * intros x Hx Tx. rewrite ENg, E in Hx. destruct Hx as [<-|[<-|[]]]; [congruence|exact Ly].
  - right. split; [intros [? _]; discriminate|].
    apply (prev_pos_earlier fp c ld h D1 D2 (f_n f) R W (flab f) _ (f_n g) (Q ++ f_P f) (f_it g) LF HB ED); auto.
    pose proof (nid_pos fp c NSS h s kvs SR RT (length r) (f_P g)) as NP. unfold SurfGet2.nid in NP. rewrite app_length. cbn [length] in *. lia.
Qed.

Lemma climb_all r : forall it f, pok (f :: r) -> length r < h -> dlen it -> dslots (d_pos it) (d_plen it) (f :: r) ->
  i_term (f_it f) = false -> is_prefix (ndpath (f_n f) ++ [flab f]) (d_key it) -> d_atPrefix it = false ->
  exists it', d_prev_climb (length r) ld it = Ok it' /\
    ((dies f r /\ d_valid it' = false /\ dlen it') \/ (~ dies f r /\ bef (f :: r) <> [] /\ dstopR it' (i_grp (f_it f) ++ aft (f :: r)))).
Proof.
  induction r as [|g r IH]; intros it f PK L DL SL NT KP AP;
    pose proof PK as (PK1 & T1 & EI);
    destruct (dense_at fp c NSS h s kvs SR RT _ _ _ PK1 T1 L) as (D1 & D2 & _ & LD & R & W & ED);
    pose proof (top_wf NSS kvs dw_linked dw_wf RT _ _ _ PK1 T1) as Wn;
    destruct (items_order _ _ _ _ Wn EI NT) as [OA OB]; pose proof (frame_lab NSS kvs dw_linked dw_wf RT f _ PK) as LF;
    pose proof SL as SL0; cbn [SurfIterDense.dslots] in SL; destruct SL as ((TS1 & TS2) & SL).
  - assert (D10 : D1 = []) by (rewrite ED, (proj1 T1); reflexivity).
    assert (DEAD : no_label f -> exists it', d_prev_climb 0 ld it = Ok it' /\ d_valid it' = false /\ dlen it').
    { intros NL. cbn [d_prev_climb]. cbn [length] in TS1, LD. rewrite (proj2 (idx_Ok _ _ _) TS1). cbn [bind]. rewrite <- LD.
      rewrite (prev_pos_root fp c ld h D1 D2 (f_n f) R); auto.
      2:{ intros x Hx Tx. rewrite EI in Hx. apply in_app_or in Hx as [Hx|[<-|Hx]]; [|unfold flab; lia|destruct (OB x Hx); unfold flab; lia].
          destruct NL as [NL|(t & NL & Tt)]; rewrite NL in Hx; [destruct Hx|]. destruct Hx as [<-|[]]. congruence. }
      cbn [bind]. eexists. split; [reflexivity|]. destruct DL. repeat split; auto. }
    destruct (before_item _ _ _ _ EI) as [EA|[(t & EA & Tt)|(A & x & EA & Tx)]].
    + destruct DEAD as (it' & E & D); [now left|]. exists it'. split; [exact E|]. left. split; [left; now left|exact D].
    + destruct DEAD as (it' & E & D); [right; eauto|]. exists it'. split; [exact E|]. left. split; [left; right; eauto|exact D].
    + destruct (Nat.eq_dec (i_label x) 0) as [Z|NZ].
      * assert (Ix : In x (items (f_n f))) by (rewrite EI, EA; apply in_or_app; left; apply in_or_app; right; now left).
        assert (Lx : i_label x < flab f) by (apply OA; auto; rewrite EA; apply in_or_app; right; now left).
        cbn [length d_prev_climb]. cbn [length] in TS1, LD. rewrite (proj2 (idx_Ok _ _ _) TS1). cbn [bind]. rewrite <- LD.
        rewrite (prev_pos_at fp c ld h D1 D2 (f_n f) R W x); auto; try (rewrite D10; cbn [length]; lia).
        -- rewrite D10, Z. cbn [length Nat.mul Nat.add Nat.eqb bind]. eexists. split; [reflexivity|]. left. destruct DL. split; [right; eauto|]. repeat split; auto.
        -- intros y Hy Ty. assert (EI2 : items (f_n f) = A ++ x :: (f_it f :: f_B f)) by (rewrite EI, EA, <- app_assoc; reflexivity).
           destruct (items_order _ _ _ _ Wn EI2 Tx) as [OA2 _]. rewrite EI2 in Hy. apply in_app_or in Hy as [Hy|[<-|[<-|Hy]]]; [left|left; lia|right; unfold flab; lia|right].
           ++ specialize (OA2 y Hy Ty). lia.
           ++ destruct (OB y Hy). unfold flab. lia.
      * destruct (prev_in_node fp c NSS h s kvs SR RT [] it f A x) as (it' & E' & S'); auto.
        { eapply is_prefix_trans; [|exact KP]. now exists [flab f]. } { intros _. lia. }
        exists it'. split; auto. right. split; [|split; [eapply bef_ne; eauto|exact S']]. intros [NL|(A' & y & EA' & Ty & Z)].
        -- revert NL. eapply no_label_not; eauto.
        -- rewrite EA in EA'. apply app_inj_tail in EA' as [_ ->]. contradiction.
  - destruct (before_item _ _ _ _ EI) as [EA|[(t & EA & Tt)|(A & x & EA & Tx)]].
    3:{ destruct (prev_in_node fp c NSS h s kvs SR RT (g :: r) it f A x) as (it' & E' & S'); auto.
        { eapply is_prefix_trans; [|exact KP]. now exists [flab f]. } { discriminate. }
        exists it'. split; auto. right. split; [|split; [eapply bef_ne; eauto|exact S']]. intros [(_ & _ & NL)|(EA' & _)]; [revert NL; eapply no_label_not; eauto|].
        rewrite EA in EA'. destruct A; discriminate. }
    + (* climb *)
      cbn [length] in L. destruct (prev_pos_climb g r f PK L NT (or_introl EA)) as [(R0 & Z & PP)|(NZ & q & PP & LT)].
      * cbn [length d_prev_climb]. cbn [length] in TS1. rewrite (proj2 (idx_Ok _ _ _) TS1). cbn [bind]. rewrite PP. cbn [bind]. eexists. split; [reflexivity|].
        left. destruct DL. split; [left; split; auto; split; auto; now left|]. repeat split; auto.
      * cbn [length d_prev_climb]. cbn [length] in TS1, LD. rewrite (proj2 (idx_Ok _ _ _) TS1). cbn [bind]. rewrite PP. cbn [bind]. rewrite LT.
        replace ((nid (S (length r)) (f_P f) * 256 + flab f) / 256) with (length D1) by (rewrite LD; lia).
        rewrite (d_isPrefix fp c ld h D1 D2 (f_n f) R). cbn [bind].
        assert (NTN : nterm (f_n f) = false).
        { unfold nterm. rewrite EI, EA. cbn [app existsb]. rewrite NT. cbn [orb]. destruct (existsb i_term (f_B f)) eqn:Ex; auto.
          apply existsb_exists in Ex as (y & Y1 & Y2). destruct (OB y Y1). congruence. }
        rewrite NTN. pose proof T1 as (HC & EN & EP). pose proof (frame_in kvs g r PK1) as Ig. pose proof (item_hasc_noterm _ _ Ig HC) as Tg.
        destruct (IH it g) as (it' & E & RES); auto.
        { lia. }
        { destruct (top_npath NSS kvs dw_linked dw_wf RT _ _ _ _ PK1 T1) as [NP _].
          eapply is_prefix_trans; [|exact KP]. rewrite <- NP. eapply is_prefix_trans; [apply (npath_ndpath _ Wn)|]. now exists [flab f]. }
        exists it'. split; [exact E|].
        assert (B1 : bef (f :: g :: r) = bef (g :: r)) by (cbn [bef]; rewrite EA; cbn [map concat]; apply app_nil_r).
        assert (B2 : i_grp (f_it f) ++ aft (f :: g :: r) = i_grp (f_it g) ++ aft (g :: r)).
        { change (aft (f :: g :: r)) with (concat (map i_grp (f_B f)) ++ aft (g :: r)). rewrite app_assoc. f_equal.
          pose proof (items_kvs (tn_d (f_n f)) (tn_kvs (f_n f))) as K. fold (items (f_n f)) in K. rewrite EI, EA in K. cbn [app map concat] in K. rewrite K, EN. reflexivity. }
        rewrite B1, B2. destruct RES as [(DG & RES)|(DG & RES)]; [left|right]; (split; [|exact RES]).
        -- right. auto.
        -- intros [(R0 & Z & _)|(_ & DG')]; [apply NZ; auto|contradiction].
    + (* terminator *)
      cbn [length] in L. destruct (prev_pos_climb g r f PK L NT (or_intror (ex_intro _ t (conj EA Tt)))) as [(R0 & Z & PP)|(NZ & q & PP & LT)].
      * cbn [length d_prev_climb]. cbn [length] in TS1. rewrite (proj2 (idx_Ok _ _ _) TS1). cbn [bind]. rewrite PP. cbn [bind]. eexists. split; [reflexivity|].
        left. destruct DL. split; [left; split; auto; split; auto; right; eauto|]. repeat split; auto.
      * cbn [length d_prev_climb]. cbn [length] in TS1, TS2, LD. rewrite (proj2 (idx_Ok _ _ _) TS1). cbn [bind]. rewrite PP. cbn [bind]. rewrite LT.
        replace ((nid (S (length r)) (f_P f) * 256 + flab f) / 256) with (length D1) by (rewrite LD; lia).
        rewrite (d_isPrefix fp c ld h D1 D2 (f_n f) R). cbn [bind].
        assert (NTN : nterm (f_n f) = true) by (unfold nterm; rewrite EI, EA; cbn [app existsb]; now rewrite Tt).
        rewrite NTN. unfold d_truncate. cbn [d_setLevel d_level d_plen d_key]. rewrite (proj2 (idx_Ok _ _ _) TS2). cbn [bind].
        replace (tn_d (f_n f) + 1) with (length (ndpath (f_n f) ++ [flab f])) by (rewrite app_length, (ndpath_length _ Wn); reflexivity).
        rewrite (slice_prefix _ _ KP). cbn [bind]. eexists. split; [reflexivity|]. right.
        assert (It : In t (items (f_n f))) by (rewrite EI, EA; now left).
        destruct (item_leaf _ t It) as (e & G). { destruct (hasc t) eqn:HT; auto. rewrite (item_hasc_noterm _ _ It HT) in Tt. discriminate. }
        split; [intros [(R0 & Z & _)|(EA' & _)]; [apply NZ; auto|congruence]|]. split; [eapply (bef_ne kvs f (g :: r) [] t); eauto|].
        eexists _, _. apply (dstop_term NSS h kvs _ _ _ f (g :: r) t e); auto; try reflexivity; [|repeat split].
        destruct DL as [L1 L2]. constructor; auto. constructor; auto.
Qed.

Lemma prev_all it f r : DS it f r -> d_atPrefix it = false ->
  exists it', d_prev ld it = Ok it' /\
    ((dies f r /\ d_valid it' = false /\ dlen it') \/ (~ dies f r /\ bef (f :: r) <> [] /\ dstopR it' (i_grp (f_it f) ++ aft (f :: r)))).
Proof.
  intros D AP. unfold d_prev. rewrite (ds_h0 fp c NSS h s kvs SR _ _ _ D), AP, (ds_level _ _ _ _ _ _ D).
  apply climb_all; auto; try apply D. rewrite (ds_key _ _ _ _ _ _ D). apply is_prefix_refl.
Qed.

Lemma prev_term_root it f t : DS it f [] -> d_atPrefix it = true -> f_A f = [t] -> d_prev ld it = Panic.
Proof.
  intros D AP EA. unfold d_prev. rewrite (ds_h0 fp c NSS h s kvs SR _ _ _ D), AP, (ds_level _ _ _ _ _ _ D). reflexivity.
Qed.
Lemma prev_term_all it f g r t : DS it f (g :: r) -> d_atPrefix it = true -> f_A f = [t] -> i_term t = true ->
  exists it', d_prev ld it = Ok it' /\
    ((dies g r /\ d_valid it' = false /\ dlen it') \/ (~ dies g r /\ bef (g :: r) <> [] /\ dstopR it' (i_grp t ++ i_grp (f_it f) ++ aft (f :: g :: r)))).
Proof.
  intros D AP EA Tt. unfold d_prev. rewrite (ds_h0 fp c NSS h s kvs SR _ _ _ D), AP, (ds_level _ _ _ _ _ _ D).
  pose proof (ds_pok _ _ _ _ _ _ D) as PK. pose proof PK as (PK1 & T1 & EI).
  cbn [length]. unfold sub_chk. cbn [Nat.leb bind]. replace (S (length r) - 1) with (length r) by lia.
  pose proof (top_wf NSS kvs dw_linked dw_wf RT _ _ _ PK1 T1) as Wn.
  pose proof T1 as (HC & EN & EP). pose proof (frame_in kvs g r PK1) as Ig. pose proof (item_hasc_noterm _ _ Ig HC) as Tg.
  destruct (climb_all r (d_setLevel (d_setAtPrefix it false) (length r)) g) as (it' & E & RES); auto.
  { pose proof (ds_h _ _ _ _ _ _ D) as L. cbn [length] in L. lia. }
  { destruct (ds_len _ _ _ _ _ _ D). constructor; auto. }
  { apply (ds_slots _ _ _ _ _ _ D). }
  { cbn [d_setLevel d_setAtPrefix d_key]. rewrite (ds_key _ _ _ _ _ _ D).
    destruct (top_npath NSS kvs dw_linked dw_wf RT _ _ _ _ PK1 T1) as [NP _]. rewrite <- NP.
    eapply is_prefix_trans; [apply (npath_ndpath _ Wn)|]. now exists [flab f]. }
  exists it'. split; [exact E|].
  assert (B2 : i_grp t ++ i_grp (f_it f) ++ aft (f :: g :: r) = i_grp (f_it g) ++ aft (g :: r)).
  { change (aft (f :: g :: r)) with (concat (map i_grp (f_B f)) ++ aft (g :: r)). rewrite !app_assoc. f_equal.
    pose proof (items_kvs (tn_d (f_n f)) (tn_kvs (f_n f))) as K. fold (items (f_n f)) in K. rewrite EI, EA in K. cbn [app map concat] in K. rewrite <- app_assoc, K, EN. reflexivity. }
  rewrite B2. exact RES.
Qed.
End Walk.
