(** * SurfCapProofs: Get on whatever Unmarshal accepted ends, and what it returns. *)
From Verif Require Import Base BitsModel VecModel SurfModel SurfMarshal SurfWord VecProofs VecProofs2 SurfBuildTop SurfSpec SurfTop SurfSize SurfWordProofs SurfWordSpec SurfWordTop SurfWordMarshal SurfWordMarshalProofs SurfCap.

(* ------------------------------------------------------------------ *)
(** ** Nothing hangs *)
Definition nh {A} (r : res A) : Prop := r <> Hang.
Ltac nd := unfold nh; intros; discriminate.
Lemma nh_ok {A} (a : A) : nh (Ok a). Proof. nd. Qed.
Lemma nh_panic {A} : nh (@Panic A). Proof. nd. Qed.
Lemma nh_bind {A B} (m : res A) (f : A -> res B) : nh m -> (forall a, m = Ok a -> nh (f a)) -> nh (bind m f).
Proof. intros N F. destruct m as [a| |]; cbn [bind]; [now apply F|nd|now destruct N]. Qed.
Lemma nh_if {A} (b : bool) (x y : res A) : nh x -> nh y -> nh (if b then x else y).
Proof. now destruct b. Qed.
Lemma nh_idx {A} (l : list A) i : nh (idx l i).
Proof. unfold idx. destruct (nth_error l i); nd. Qed.
Lemma nh_slice {A} (l : list A) a b : nh (slice l a b).
Proof. unfold slice. apply nh_if; nd. Qed.
Lemma nh_slice_from {A} (l : list A) a : nh (slice_from l a).
Proof. unfold slice_from. apply nh_if; nd. Qed.
Lemma nh_get32 b : nh (get32 b).
Proof. unfold get32. destruct b as [|? [|? [|? [|? ?]]]]; nd. Qed.
Lemma nh_getw b : nh (getw b).
Proof. apply nh_bind; [apply nh_get32|nd]. Qed.
Create HintDb nh discriminated.
#[local] Hint Resolve nh_ok nh_panic nh_idx nh_slice nh_slice_from nh_get32 nh_getw : nh.
Ltac nhs := repeat first
  [ solve [auto with nh]
  | match goal with |- nh (let '(_, _) := ?p in _) => destruct p end
  | apply nh_bind; [|intros ? ?] | apply nh_if ].

Lemma nh_readBit l p : nh (readBit l p). Proof. unfold readBit. nhs. Qed.
Lemma nh_isSet v p : nh (rv_isSet v p). Proof. apply nh_readBit. Qed.
Lemma nh_popw bs off n : nh (popcount_words bs off n).
Proof. revert off. induction n as [|n IH]; intros off; cbn [popcount_words]; nhs; apply IH. Qed.
#[local] Hint Resolve nh_readBit nh_isSet nh_popw : nh.
Lemma nh_pop bs off n : nh (popcountBlock bs off n).
Proof. unfold popcountBlock. cbv zeta. nhs. Qed.
#[local] Hint Resolve nh_pop : nh.
Lemma nh_rank b v p : nh (rank_at32 b v p).
Proof. unfold rank_at32. cbv zeta. nhs. Qed.
#[local] Hint Resolve nh_rank : nh.
Lemma nh_sel64 w k : nh (select64 w k).
Proof. unfold select64, select64_other, select64Broadword. cbv zeta. nhs. Qed.
Lemma nh_sel_loop fuel bs : forall wo w ones rl, length bs <= wo + fuel -> wo < length bs -> nh (sel_loop fuel bs wo w ones rl).
Proof.
  induction fuel as [|f IH]; intros wo w ones rl L W; cbn [sel_loop]; [lia|].
  apply nh_if; [|apply nh_ok]. cbv zeta. apply nh_bind; [apply nh_idx|]. intros x E. unfold idx in E. destruct (nth_error bs (S wo)) eqn:EN; [|discriminate E].
  assert (S wo < length bs) by (apply nth_error_Some; rewrite EN; discriminate). apply IH; lia.
Qed.
Lemma nh_select v r : nh (select32 v r).
Proof.
  unfold select32. cbv zeta. apply nh_if; [apply nh_panic|]. apply nh_bind; [apply nh_idx|]. intros pos _. apply nh_if; [apply nh_ok|].
  destruct (if Nat.eqb (pos mod 64) 63 then _ else _) as [wo bo]. apply nh_bind; [apply nh_idx|]. intros w E.
  unfold idx in E. destruct (nth_error (bv_bits (sv_bv v)) wo) eqn:EN; [|discriminate E].
  assert (wo < length (bv_bits (sv_bv v))) by (apply nth_error_Some; rewrite EN; discriminate).
  apply nh_bind; [apply nh_sel_loop; lia|]. intros ((a & b) & c) _. apply nh_bind; [apply nh_sel64|]. nd.
Qed.
Lemma nh_next todo v : forall wo d, nh (next_loop32 todo v wo d).
Proof. induction todo as [|n IH]; intros wo d; cbn [next_loop32]; nhs; apply IH. Qed.
#[local] Hint Resolve nh_sel64 nh_select nh_next : nh.
Lemma nh_dist v p : nh (distanceToNextSetBit32 v p).
Proof. unfold distanceToNextSetBit32. cbv zeta. nhs. Qed.
Lemma nh_search l k a n : nh (label_search32 l k a n).
Proof. unfold label_search32. nhs. cbv zeta. nhs. destruct (indexByte _ _); nd. Qed.
Lemma nh_getPrefix more v n : nh (getPrefixC more v n).
Proof. unfold getPrefixC, slice_cap. cbv zeta. nhs. Qed.
#[local] Hint Resolve nh_dist nh_search nh_getPrefix : nh.
Lemma nh_checkPrefix more v k d n : nh (checkPrefixC more v k d n).
Proof. unfold checkPrefixC. nhs. Qed.
Lemma nh_real todo key : forall i x, nh (real_suffix_loop todo i key x).
Proof. induction todo as [|n IH]; intros i x; cbn [real_suffix_loop]; nhs; apply IH. Qed.
#[local] Hint Resolve nh_checkPrefix nh_real : nh.
Lemma nh_creal k l n : nh (constructRealSuffix32 k l n).
Proof. unfold constructRealSuffix32. cbv zeta. nhs. Qed.
#[local] Hint Resolve nh_creal : nh.
Lemma nh_csuffix fp k l t r h : nh (constructSuffix32 fp k l t r h).
Proof. unfold constructSuffix32, constructMixedSuffix32. destruct t; nhs. Qed.
Lemma nh_xread v i : nh (suffix_read32 v i).
Proof. unfold suffix_read32. cbv zeta. nhs. Qed.
#[local] Hint Resolve nh_csuffix nh_xread : nh.
Lemma nh_equality fp v i k l : nh (checkEquality32 fp v i k l).
Proof. unfold checkEquality32. cbv zeta. nhs. Qed.
#[local] Hint Resolve nh_equality : nh.
Lemma nh_equalityC fp u v i k l : nh (checkEqualityC fp u v i k l).
Proof. unfold checkEqualityC. nhs. Qed.
#[local] Hint Resolve nh_equalityC : nh.
Lemma nh_value fp more u sv vv p k l : nh (check_valueC fp more u sv vv p k l).
Proof. unfold check_valueC, valueVector_getC, slice_cap. cbv zeta. nhs. Qed.
Lemma nh_ldpos ld p b : nh (ld_suffixPos32 ld p b).
Proof. unfold ld_suffixPos32. cbv zeta. nhs. Qed.
Lemma nh_lspos ls p : nh (ls_suffixPos32 ls p).
Proof. unfold ls_suffixPos32. nhs. Qed.
Lemma nh_child ls p : nh (ls_childNodeID32 ls p).
Proof. unfold ls_childNodeID32. nhs. Qed.
Lemma nh_first ls p : nh (ls_firstLabelPos32 ls p).
Proof. apply nh_select. Qed.
#[local] Hint Resolve nh_value nh_ldpos nh_lspos nh_child nh_first : nh.
Lemma nh_ld fp ex todo ld key : forall n d, nh (ld_get_loopC fp ex todo ld key n d).
Proof. induction todo as [|t IH]; intros n d; cbn [ld_get_loopC]; nhs. all: cbv zeta; nhs; try apply IH. Qed.
Lemma nh_end fp ex ls key p d : nh (ls_get_endC fp ex ls key p d).
Proof. unfold ls_get_endC, getLabel. nhs. Qed.
#[local] Hint Resolve nh_ld nh_end : nh.

(** The depth grows with each level of the sparse part. *)
Lemma checkPrefix_depth more v key d n pl ok : fits32 (length key) -> d < length key -> checkPrefixC more v key d n = Ok (pl, ok) -> add32 d pl = d + pl /\ d + pl <= length key.
Proof.
  intros F L. unfold checkPrefixC. intros H. apply bindI in H as (p & _ & H). destruct (Nat.eqb (length p) 0).
  - apply OkI in H. apply (f_equal fst) in H. cbn [fst] in H. subst pl. rewrite add32_small; [lia|]. fit.
  - destruct (Nat.ltb (length key) (d + length p)) eqn:E.
    + apply OkI in H. apply (f_equal fst) in H. cbn [fst] in H. subst pl. rewrite add32_small; [lia|]. fit.
    + apply Nat.ltb_ge in E. apply bindI in H as (k & _ & H). assert (W : w32 (length p) = length p) by (apply w32_small; fit).
      destruct (beqb k p); apply OkI in H; apply (f_equal fst) in H; cbn [fst] in H; subst pl; rewrite ?W; rewrite add32_small; try lia; fit.
Qed.
Lemma nh_ls fp ex ls key : fits32 (length key) -> forall fuel n p d, length key <= fuel + d -> nh (ls_get_loopC fp ex fuel ls key n p d).
Proof.
  intros F. assert (WK : w32 (length key) = length key) by (now apply w32_small).
  induction fuel as [|f IH]; intros n p d L; cbn [ls_get_loopC]; rewrite WK.
  - replace (Nat.leb (length key) d) with true by (symmetry; apply Nat.leb_le; lia). apply nh_end.
  - destruct (Nat.leb (length key) d) eqn:E; [apply nh_end|]. apply Nat.leb_gt in E. apply nh_bind; [apply nh_checkPrefix|]. intros (pl & ok) EC.
    apply checkPrefix_depth in EC as (A & LE); auto. apply nh_if; [apply nh_ok|]. cbv zeta. rewrite A.
    destruct (Nat.leb (length key) (d + pl)) eqn:E2; [apply nh_end|]. apply Nat.leb_gt in E2.
    assert (A1 : add32 (d + pl) 1 = d + pl + 1) by (apply add32_small; fit). rewrite A1. nhs. apply IH. lia.
Qed.
Theorem get_ends fp ex s key : fits32 (length key) -> surf_getC fp ex s key <> Hang.
Proof.
  intros F. change (nh (surf_getC fp ex s key)). unfold surf_getC. apply nh_bind; [apply nh_ld|]. intros [v|n d] _; [apply nh_ok|].
  apply nh_bind; [apply nh_first|]. intros pos _. apply nh_ls; auto. lia.
Qed.

Lemma nh_rv b : nh (rv_read32 b).
Proof. unfold rv_read32. cbv zeta. nhs. Qed.
Lemma nh_sv b : nh (sv_read32 b).
Proof. unfold sv_read32. cbv zeta. nhs. Qed.
Lemma nh_vv b : nh (vv_read32 b).
Proof. unfold vv_read32. nhs. Qed.
Lemma nh_lab b : nh (lab_read32 b).
Proof. unfold lab_read32. nhs. Qed.
#[local] Hint Resolve nh_rv nh_sv nh_vv nh_lab : nh.
Lemma nh_pv b : nh (pv_read32 b).
Proof. unfold pv_read32. nhs. Qed.
Lemma nh_type b : nh (byte_type b).
Proof. unfold byte_type. destruct b as [|[|[|[|?]]]]; nd. Qed.
#[local] Hint Resolve nh_pv nh_type : nh.
Lemma nh_xv b : nh (xv_readC b).
Proof. unfold xv_readC. cbv zeta. nhs. Qed.
#[local] Hint Resolve nh_xv : nh.
Lemma nh_ldr b : nh (ld_readC b).
Proof. unfold ld_readC. nhs. Qed.
Lemma nh_lsr b : nh (ls_readC b).
Proof. unfold ls_readC. nhs. Qed.
Lemma nh_pvb b : nh (pv_behind b).
Proof. unfold pv_behind. nhs. Qed.
Lemma nh_vvb b : nh (vv_behind b).
Proof. unfold vv_behind. nhs. Qed.
#[local] Hint Resolve nh_ldr nh_lsr nh_pvb nh_vvb : nh.
Lemma nh_ldb b : nh (ld_behind b).
Proof. unfold ld_behind. nhs. Qed.
Lemma nh_lsb b : nh (ls_behind b).
Proof. unfold ls_behind. nhs. Qed.
#[local] Hint Resolve nh_ldb nh_lsb : nh.
Theorem unmarshal_ends b : unmarshalC b <> Hang.
Proof. change (nh (unmarshalC b)). unfold unmarshalC. nhs. Qed.
Lemma extra_ends b more : nh (extra_of b more).
Proof. unfold extra_of. nhs. Qed.
Theorem unmarshal_get_ends fp b more key : fits32 (length key) -> unmarshal_get fp b more key <> Hang.
Proof.
  intros F. change (nh (unmarshal_get fp b more key)). unfold unmarshal_get. apply nh_bind; [apply unmarshal_ends|]. intros s _. apply nh_bind; [apply extra_ends|]. intros ex _. now apply get_ends.
Qed.

(* ------------------------------------------------------------------ *)
(** ** What Get answers without looking behind a slice, it answers *)
Lemma slice_cap_same l more a b x : slice l a b = Ok x -> slice_cap l more a b = Ok x.
Proof.
  unfold slice_cap, slice. rewrite app_length. destruct (Nat.leb a b) eqn:A; cbn [andb]; [|intros H; discriminate H].
  destruct (Nat.leb b (length l)) eqn:B; [|intros H; discriminate H]. intros H. apply Nat.leb_le in A, B.
  replace (Nat.leb b (length l + length more)) with true by (symmetry; apply Nat.leb_le; lia).
  rewrite skipn_app, firstn_app, skipn_length. replace (b - a - (length l - a)) with 0 by lia. cbn [firstn]. now rewrite app_nil_r.
Qed.
Lemma bind_mono {A B} (m m' : res A) (f f' : A -> res B) y : bind m f = Ok y -> (forall a, m = Ok a -> m' = Ok a) -> (forall a, m = Ok a -> f a = Ok y -> f' a = Ok y) -> bind m' f' = Ok y.
Proof. intros H M F. destruct m as [a| |] eqn:E; [|discriminate H|discriminate H]. rewrite (M a eq_refl). cbn [bind] in *. now apply F. Qed.
Lemma getPrefix_cap more v n x : getPrefix32 v n = Ok x -> getPrefixC more v n = Ok x.
Proof.
  unfold getPrefix32, getPrefixC. cbv zeta. intros H. apply (bind_mono _ _ _ _ _ H); [auto|]. intros b _ H1. destruct (negb b); [exact H1|].
  apply (bind_mono _ _ _ _ _ H1); [auto|]. intros r _ H2. apply (bind_mono _ _ _ _ _ H2); [auto|]. intros so _ H3. apply (bind_mono _ _ _ _ _ H3); [auto|]. intros st _ H4.
  apply (bind_mono _ _ _ _ _ H4); [auto|]. intros e _ H5. now apply slice_cap_same.
Qed.
Lemma checkPrefix_cap more v k d n x : checkPrefix32 v k d n = Ok x -> checkPrefixC more v k d n = Ok x.
Proof. unfold checkPrefix32, checkPrefixC. intros H. apply (bind_mono _ _ _ _ _ H); [intros a; apply getPrefix_cap|auto]. Qed.
Lemma check_value_cap fp more sv vv p k l x : check_value32 fp sv vv p k l = Ok x -> check_valueC fp more false sv vv p k l = Ok x.
Proof.
  unfold check_value32, check_valueC. intros H. apply (bind_mono _ _ _ _ _ H); [auto|]. intros ok _ H1. destruct ok; [|exact H1].
  apply (bind_mono _ _ _ _ _ H1); [|auto]. intros a. unfold valueVector_get32, valueVector_getC. cbv zeta. apply slice_cap_same.
Qed.
Lemma ld_cap fp ex ld key : ex_dunknown ex = false -> forall todo n d x, ld_get_loop32 fp todo ld key n d = Ok x -> ld_get_loopC fp ex todo ld key n d = Ok x.
Proof.
  intros U. induction todo as [|t IH]; intros n d x H; [exact H|]. cbn [ld_get_loop32 ld_get_loopC] in *. rewrite U.
  apply (bind_mono _ _ _ _ _ H); [intros a; apply checkPrefix_cap|]. intros (pl & ok) _ H1. destruct (negb ok); [exact H1|]. cbv zeta in *.
  destruct (Nat.leb (w32 (length key)) (add32 d pl)).
  - apply (bind_mono _ _ _ _ _ H1); [auto|]. intros p _ H2. destruct p; [|exact H2]. apply (bind_mono _ _ _ _ _ H2); [auto|]. intros vp _ H3.
    apply (bind_mono _ _ _ _ _ H3); [intros a; apply check_value_cap|auto].
  - apply (bind_mono _ _ _ _ _ H1); [auto|]. intros kb _ H2. apply (bind_mono _ _ _ _ _ H2); [auto|]. intros l _ H3. destruct (negb l); [exact H3|].
    apply (bind_mono _ _ _ _ _ H3); [auto|]. intros h _ H4. destruct (negb h).
    + apply (bind_mono _ _ _ _ _ H4); [auto|]. intros vp _ H5. apply (bind_mono _ _ _ _ _ H5); [intros a; apply check_value_cap|auto].
    + apply (bind_mono _ _ _ _ _ H4); [auto|]. intros n' _ H5. now apply IH.
Qed.
Lemma end_cap fp ex ls key p d x : ex_sunknown ex = false -> ls_get_end32 fp ls key p d = Ok x -> ls_get_endC fp ex ls key p d = Ok x.
Proof.
  intros U. unfold ls_get_end32, ls_get_endC. rewrite U. intros H. apply (bind_mono _ _ _ _ _ H); [auto|]. intros l _ H1. apply (bind_mono _ _ _ _ _ H1); [auto|]. intros h _ H2. destruct h; [exact H2|].
  apply (bind_mono _ _ _ _ _ H2); [auto|]. intros vp _ H3. now apply check_value_cap.
Qed.
Lemma ls_cap fp ex ls key : ex_sunknown ex = false -> forall fuel n p d x, ls_get_loop32 fp fuel ls key n p d = Ok x -> ls_get_loopC fp ex fuel ls key n p d = Ok x.
Proof.
  intros U. induction fuel as [|f IH]; intros n p d x H; cbn [ls_get_loop32 ls_get_loopC] in *; rewrite ?U.
  - destruct (Nat.leb (w32 (length key)) d); [now apply end_cap|exact H].
  - destruct (Nat.leb (w32 (length key)) d); [now apply end_cap|].
    apply (bind_mono _ _ _ _ _ H); [intros a; apply checkPrefix_cap|]. intros (pl & ok) _ H1. destruct (negb ok); [exact H1|]. cbv zeta in *.
    destruct (Nat.leb (w32 (length key)) (add32 d pl)); [now apply end_cap|].
    apply (bind_mono _ _ _ _ _ H1); [auto|]. intros kb _ H2. apply (bind_mono _ _ _ _ _ H2); [auto|]. intros sz _ H3. apply (bind_mono _ _ _ _ _ H3); [auto|]. intros (p' & ok') _ H4. destruct (negb ok'); [exact H4|].
    apply (bind_mono _ _ _ _ _ H4); [auto|]. intros h _ H5. destruct (negb h).
    + apply (bind_mono _ _ _ _ _ H5); [auto|]. intros vp _ H6. now apply check_value_cap.
    + apply (bind_mono _ _ _ _ _ H5); [auto|]. intros n' _ H6. apply (bind_mono _ _ _ _ _ H6); [auto|]. intros p'' _ H7. now apply IH.
Qed.
Theorem get_cap fp ex s key x : ex_dunknown ex = false -> ex_sunknown ex = false -> surf_get32 fp s key = Ok x -> surf_getC fp ex s key = Ok x.
Proof.
  intros U1 U2. unfold surf_get32, surf_getC. intros H. apply (bind_mono _ _ _ _ _ H); [intros a; now apply ld_cap|]. intros [v|n d] _ H1; [exact H1|].
  apply (bind_mono _ _ _ _ _ H1); [auto|]. intros p _ H2. now apply ls_cap.
Qed.

(* ------------------------------------------------------------------ *)
(** ** A value that Get returns is a piece of the caller's array *)
Definition piece (v l : bytes) : Prop := exists pre post, l = pre ++ v ++ post.
Lemma piece_slice l a b v : slice l a b = Ok v -> piece v l /\ a <= b /\ length v = b - a.
Proof.
  intros H. pose proof (slice_len _ _ _ _ H) as L. unfold slice in H. destruct (Nat.leb a b) eqn:A; cbn [andb] in H; [|discriminate H]. destruct (Nat.leb b (length l)); [|discriminate H].
  apply OkI in H. apply Nat.leb_le in A. split; [|auto]. exists (firstn a l), (skipn (b - a) (skipn a l)). subst v. rewrite firstn_skipn. symmetry. apply firstn_skipn.
Qed.
Lemma piece_skip v n l : piece v (skipn n l) -> piece v l.
Proof. intros (p & q & E). exists (firstn n l ++ p), q. rewrite <- app_assoc, <- E. symmetry. apply firstn_skipn. Qed.
Lemma piece_skip_app v n l m : n <= length l -> piece v (skipn n l ++ m) -> piece v (l ++ m).
Proof. intros L P. apply (piece_skip v n). rewrite skipn_app. replace (n - length l) with 0 by lia. exact P. Qed.

(** [v] is a value of the vector [vv] with [more] behind it. *)
Definition value_of (v : bytes) (vv : valueVector) (more : bytes) : Prop := piece v (vv_bytes vv ++ more) /\ length v = vv_valueSize vv.
Lemma value_get more vv p v : fits32 (vv_valueSize vv) -> valueVector_getC more vv p = Ok v -> value_of v vv more.
Proof.
  unfold valueVector_getC, slice_cap. cbv zeta. intros F H. apply piece_slice in H as (P & LE & L). split; [exact P|]. rewrite L. clear - F LE.
  set (o := mul32 p (vv_valueSize vv)) in *. assert (FO : fits32 o) by apply w32_fits. revert LE. unfold add32, w32, two32. unfold fits32 in *.
  destruct (N.lt_ge_cases (N.of_nat (o + vv_valueSize vv)) 4294967296) as [S|S].
  - rewrite N.mod_small by exact S. rewrite Nat2N.id. lia.
  - replace (N.of_nat (o + vv_valueSize vv)) with (N.of_nat (o + vv_valueSize vv) - 4294967296 + 1 * 4294967296)%N by lia.
    rewrite N.mod_add by discriminate. rewrite N.mod_small by lia. lia.
Qed.
Lemma check_value_of fp more u sv vv p k l v : fits32 (vv_valueSize vv) -> check_valueC fp more u sv vv p k l = Ok (Some v) -> value_of v vv more.
Proof.
  unfold check_valueC. intros F H. apply bindI in H as (ok & _ & H). destruct ok; [|discriminate H]. apply bindI in H as (w & E & H). apply OkI in H.
  assert (w = v) by congruence. subst w. eapply value_get; eauto.
Qed.
Lemma ld_value fp ex ld key : fits32 (vv_valueSize (ld_values ld)) -> forall todo n d v, ld_get_loopC fp ex todo ld key n d = Ok (DAnswer (Some v)) -> value_of v (ld_values ld) (ex_dvalues ex).
Proof.
  intros F. induction todo as [|t IH]; intros n d v H; [discriminate H|]. cbn [ld_get_loopC] in H. apply bindI in H as ((pl & ok) & _ & H). destruct (negb ok); [discriminate H|]. cbv zeta in H.
  destruct (Nat.leb (w32 (length key)) (add32 d pl)).
  - apply bindI in H as (p & _ & H). destruct p; [|discriminate H]. apply bindI in H as (vp & _ & H). apply bindI in H as (w & E & H). apply OkI in H. assert (w = Some v) by congruence. subst w. eapply check_value_of; eauto.
  - apply bindI in H as (kb & _ & H). apply bindI in H as (l & _ & H). destruct (negb l); [discriminate H|]. apply bindI in H as (h & _ & H). destruct (negb h).
    + apply bindI in H as (vp & _ & H). apply bindI in H as (w & E & H). apply OkI in H. assert (w = Some v) by congruence. subst w. eapply check_value_of; eauto.
    + apply bindI in H as (n' & _ & H). eapply IH; eauto.
Qed.
Lemma end_value fp ex ls key p d v : fits32 (vv_valueSize (ls_values ls)) -> ls_get_endC fp ex ls key p d = Ok (Some v) -> value_of v (ls_values ls) (ex_svalues ex).
Proof.
  unfold ls_get_endC. intros F H. apply bindI in H as (l & _ & H). apply bindI in H as (h & _ & H). destruct h; [discriminate H|]. apply bindI in H as (vp & _ & H). eapply check_value_of; eauto.
Qed.
Lemma ls_value fp ex ls key : fits32 (vv_valueSize (ls_values ls)) -> forall fuel n p d v, ls_get_loopC fp ex fuel ls key n p d = Ok (Some v) -> value_of v (ls_values ls) (ex_svalues ex).
Proof.
  intros F. induction fuel as [|f IH]; intros n p d v H; cbn [ls_get_loopC] in H.
  - destruct (Nat.leb (w32 (length key)) d); [eapply end_value; eauto|discriminate H].
  - destruct (Nat.leb (w32 (length key)) d); [eapply end_value; eauto|]. apply bindI in H as ((pl & ok) & _ & H). destruct (negb ok); [discriminate H|]. cbv zeta in H.
    destruct (Nat.leb (w32 (length key)) (add32 d pl)); [eapply end_value; eauto|].
    apply bindI in H as (kb & _ & H). apply bindI in H as (sz & _ & H). apply bindI in H as ((p' & ok') & _ & H). destruct (negb ok'); [discriminate H|]. apply bindI in H as (h & _ & H). destruct (negb h).
    + apply bindI in H as (vp & _ & H). eapply check_value_of; eauto.
    + apply bindI in H as (n' & _ & H). apply bindI in H as (p'' & _ & H). eapply IH; eauto.
Qed.
Lemma get_value fp ex s key v : fits32 (vv_valueSize (ld_values (s_ld s))) -> fits32 (vv_valueSize (ls_values (s_ls s))) -> surf_getC fp ex s key = Ok (Some v) ->
  value_of v (ld_values (s_ld s)) (ex_dvalues ex) \/ value_of v (ls_values (s_ls s)) (ex_svalues ex).
Proof.
  intros F1 F2. unfold surf_getC. intros H. apply bindI in H as ([w|n d] & E & H).
  - apply OkI in H. subst w. left. eapply ld_value; eauto.
  - apply bindI in H as (p & _ & H). right. eapply ls_value; eauto.
Qed.

Lemma skipn_two {A} a : forall b (l : list A), skipn a (skipn b l) = skipn (b + a) l.
Proof. induction b as [|b IH]; intros l; [reflexivity|]. destruct l; [now rewrite !skipn_nil|]. apply IH. Qed.
(** Each vector is read from the end of the buffer given to Unmarshal. *)
Definition tail_of (r b : bytes) : Prop := exists n, n <= length b /\ r = skipn n b.
Lemma tail_from b n r : slice_from b n = Ok r -> tail_of r b.
Proof. unfold slice_from. destruct (Nat.leb n (length b)) eqn:E; [|intros H; discriminate H]. intros H. apply OkI in H. exists n. split; [now apply Nat.leb_le|auto]. Qed.
Lemma tail_trans a b c : tail_of a b -> tail_of b c -> tail_of a c.
Proof. intros (n & L & ->) (m & M & ->). rewrite skipn_length in L. exists (m + n). split; [lia|]. apply skipn_two. Qed.
Lemma piece_tail v r b m : tail_of r b -> piece v (r ++ m) -> piece v (b ++ m).
Proof. intros (n & L & ->). now apply piece_skip_app. Qed.
Lemma vv_tail b v r : vv_read32 b = Ok (v, r) -> tail_of r b /\ fits32 (vv_valueSize v) /\ forall x, vv_behind b = Ok x -> tail_of (vv_bytes v ++ x) b.
Proof.
  unfold vv_read32, vv_behind, getw. intros H. apply bindI in H as (sz & E1 & H). apply bindI in H as (b1 & _ & H). apply bindI in H as (vs & E2 & H). apply bindI in H as (bs & E4 & H). apply bindI in H as (r' & E5 & H). split_ok H.
  split; [eapply tail_from; eauto|]. cbn [vv_bytes vv_valueSize]. split; [apply bindI in E2 as (n & _ & E2); apply OkI in E2; subst vs; apply w32_fits|].
  intros x EX. rewrite E1 in EX. cbn [bind] in EX. unfold slice in E4. destruct (Nat.leb 8 (8 + sz)); cbn [andb] in E4; [|discriminate E4]. destruct (Nat.leb (8 + sz) (length b)) eqn:LB; [|discriminate E4]. apply Nat.leb_le in LB. apply OkI in E4.
  apply slice_from_inv in EX. exists 8. split; [lia|]. subst bs x. replace (8 + sz - 8) with sz by lia. rewrite <- (skipn_two sz 8 b). apply firstn_skipn.
Qed.
Lemma ld_tail b f r : ld_readC b = Ok (f, r) -> tail_of r b /\ forall v, ld_values (f v) = v.
Proof.
  unfold ld_readC. intros H. repeat (apply bindI in H as (? & ?E & H); try match goal with x : _ * _ |- _ => destruct x end). split_ok H. split; [eapply tail_from; eauto|reflexivity].
Qed.
Lemma ls_tail b f r : ls_readC b = Ok (f, r) -> tail_of r b /\ forall v, ls_values (f v) = v.
Proof.
  unfold ls_readC. intros H. repeat (apply bindI in H as (? & ?E & H); try match goal with x : _ * _ |- _ => destruct x end). split_ok H. split; [eapply tail_from; eauto|reflexivity].
Qed.
Theorem value_in_array fp b more key v s : unmarshalC b = Ok s -> unmarshal_get fp b more key = Ok (Some v) ->
  piece v (b ++ more) /\ (length v = vv_valueSize (ld_values (s_ld s)) \/ length v = vv_valueSize (ls_values (s_ls s))).
Proof.
  intros U. unfold unmarshal_get. rewrite U. cbn [bind]. intros G. apply bindI in G as (ex & EX & G).
  unfold unmarshalC in U. unfold extra_of in EX. apply bindI in EX as ((du & dp) & _ & EX). apply bindI in U as ((ld & b1) & E1 & U). rewrite E1 in EX. cbn [bind] in EX. apply bindI in EX as ((su & sp) & _ & EX).
  apply bindI in U as ((ls & b2) & E2 & U). rewrite E2 in EX. cbn [bind] in EX. apply bindI in EX as (dv & B1 & EX). apply bindI in U as ((vd & b3) & E3 & U). rewrite E3 in EX. cbn [bind] in EX. apply bindI in EX as (sv & B2 & EX).
  apply bindI in U as ((vs & b4) & E4 & U). apply OkI in U, EX. subst s ex. cbn [s_ld s_ls] in *.
  apply ld_tail in E1 as (T1 & V1). apply ls_tail in E2 as (T2 & V2). apply vv_tail in E3 as (T3 & F3 & P3). apply vv_tail in E4 as (T4 & F4 & P4). apply P3 in B1. apply P4 in B2.
  pose proof (V1 vd) as Q1. pose proof (V2 vs) as Q2. clear V1 V2.
  apply get_value in G; cbn [s_ld s_ls]; rewrite ?Q1, ?Q2 in *; auto. cbn [s_ld s_ls ex_dvalues ex_svalues] in G. rewrite Q1, Q2 in G.
  destruct G as [(P & L)|(P & L)]; (split; [|auto]); rewrite app_assoc in P; (eapply piece_tail; [|exact P]).
  - eapply tail_trans; [exact B1|]. eapply tail_trans; eauto.
  - eapply tail_trans; [exact B2|]. eapply tail_trans; [exact T3|]. eapply tail_trans; eauto.
Qed.

(* ------------------------------------------------------------------ *)
(** ** Filters that Build made *)
Lemma slice_from_ok {A} (l : list A) n : n <= length l -> exists x, slice_from l n = Ok x.
Proof. intros L. unfold slice_from. replace (Nat.leb n (length l)) with true by (symmetry; now apply Nat.leb_le). eexists; reflexivity. Qed.
Lemma slice_hi {A} (l : list A) a b x : slice l a b = Ok x -> b <= length l.
Proof. unfold slice. destruct (Nat.leb a b); cbn [andb]; [|intros H; discriminate H]. destruct (Nat.leb b (length l)) eqn:E; [|intros H; discriminate H]. intros _. now apply Nat.leb_le. Qed.
Lemma vv_behind_ok b p : vv_read32 b = Ok p -> exists x, vv_behind b = Ok x.
Proof.
  unfold vv_read32, vv_behind. intros H. apply bindI in H as (sz & E1 & H). apply bindI in H as (b1 & _ & H). apply bindI in H as (vs & _ & H). apply bindI in H as (bs & E4 & H).
  rewrite E1. cbn [bind]. apply slice_from_ok. eapply slice_hi; eauto.
Qed.
Lemma pv_behind_ok b p : pv_read32 b = Ok p -> exists x, pv_behind b = Ok x.
Proof.
  unfold pv_read32, pv_behind. intros H. apply bindI in H as ((has & b1) & E1 & H). apply bindI in H as (ol & E2 & H). apply bindI in H as (b2 & E3 & H). apply bindI in H as (dl & E4 & H). apply bindI in H as (os & _ & H). apply bindI in H as (ds & E6 & H).
  rewrite E1. cbn [bind]. rewrite E2. cbn [bind]. rewrite E3. cbn [bind]. rewrite E4. cbn [bind]. apply slice_from_ok. eapply slice_hi; eauto.
Qed.
Lemma xv_read_cap b p : xv_read32 b = Ok p -> xv_readC b = Ok p /\ exists t, idx b 4 = Ok t /\ unknown_type t = false.
Proof.
  unfold xv_read32, xv_readC. cbv zeta. intros H. apply bindI in H as (nb & E1 & H). apply bindI in H as (tb & E2 & H). apply bindI in H as (t & E3 & H).
  split; [|exists tb; split; [exact E2|]; unfold unknown_type; now rewrite E3]. rewrite E1. cbn [bind]. rewrite E2. cbn [bind]. unfold byte_typeC. rewrite E3. exact H.
Qed.
Lemma ld_read_cap b p : ld_read32 b = Ok p -> ld_readC b = Ok p.
Proof.
  unfold ld_read32, ld_readC. intros H. apply (bind_mono _ _ _ _ _ H); [auto|]. intros h _ H0. apply (bind_mono _ _ _ _ _ H0); [auto|]. intros b0 _ H1. apply (bind_mono _ _ _ _ _ H1); [auto|]. intros (v1 & b1) _ H2.
  apply (bind_mono _ _ _ _ _ H2); [auto|]. intros (v2 & b2) _ H3. apply (bind_mono _ _ _ _ _ H3); [auto|]. intros (v3 & b3) _ H4. apply (bind_mono _ _ _ _ _ H4); [|auto]. intros a E. now apply xv_read_cap.
Qed.
Lemma ls_read_cap b p : ls_read32 b = Ok p -> ls_readC b = Ok p.
Proof.
  unfold ls_read32, ls_readC. intros H.
  apply (bind_mono _ _ _ _ _ H); [auto|]. clear H. intros h0 _ H. apply (bind_mono _ _ _ _ _ H); [auto|]. clear H. intros a0 _ H. apply (bind_mono _ _ _ _ _ H); [auto|]. clear H. intros h1 _ H. apply (bind_mono _ _ _ _ _ H); [auto|]. clear H. intros a1 _ H.
  apply (bind_mono _ _ _ _ _ H); [auto|]. clear H. intros h2 _ H. apply (bind_mono _ _ _ _ _ H); [auto|]. clear H. intros a2 _ H. apply (bind_mono _ _ _ _ _ H); [auto|]. clear H. intros h3 _ H. apply (bind_mono _ _ _ _ _ H); [auto|]. clear H. intros a3 _ H.
  apply (bind_mono _ _ _ _ _ H); [auto|]. clear H. intros (v4 & b4) _ H. apply (bind_mono _ _ _ _ _ H); [auto|]. clear H. intros (v5 & b5) _ H. apply (bind_mono _ _ _ _ _ H); [auto|]. clear H. intros (v6 & b6) _ H.
  apply (bind_mono _ _ _ _ _ H); [|auto]. intros a E. now apply xv_read_cap.
Qed.
Lemma ld_behind_ok b p : ld_read32 b = Ok p -> exists x, ld_behind b = Ok (false, x).
Proof.
  unfold ld_read32, ld_behind. intros H. apply bindI in H as (h & _ & H). apply bindI in H as (b0 & E0 & H). rewrite E0. cbn [bind]. apply bindI in H as ((v1 & b1) & E1 & H). rewrite E1. cbn [bind].
  apply bindI in H as ((v2 & b2) & E2 & H). rewrite E2. cbn [bind]. apply bindI in H as ((v3 & b3) & E3 & H). rewrite E3. cbn [bind]. apply bindI in H as ((v4 & b4) & E4 & H). apply xv_read_cap in E4 as (E4 & tb & ET & UT). rewrite ET. cbn [bind]. rewrite E4. cbn [bind]. apply bindI in H as (q & E5 & H). destruct (pv_behind_ok _ _ E5) as (x & EX). rewrite EX. cbn [bind]. rewrite UT. eexists; reflexivity.
Qed.
Lemma ls_behind_ok b p : ls_read32 b = Ok p -> exists x, ls_behind b = Ok (false, x).
Proof.
  unfold ls_read32, ls_behind. intros H.
  apply bindI in H as (h0 & _ & H). apply bindI in H as (a0 & E0 & H). rewrite E0. cbn [bind]. apply bindI in H as (h1 & _ & H). apply bindI in H as (a1 & E1 & H). rewrite E1. cbn [bind].
  apply bindI in H as (h2 & _ & H). apply bindI in H as (a2 & E2 & H). rewrite E2. cbn [bind]. apply bindI in H as (h3 & _ & H). apply bindI in H as (a3 & E3 & H). rewrite E3. cbn [bind].
  apply bindI in H as ((v4 & b4) & E4 & H). rewrite E4. cbn [bind]. apply bindI in H as ((v5 & b5) & E5 & H). rewrite E5. cbn [bind]. apply bindI in H as ((v6 & b6) & E6 & H). rewrite E6. cbn [bind].
  apply bindI in H as ((v7 & b7) & E7 & H). apply xv_read_cap in E7 as (E7 & tb & ET & UT). rewrite ET. cbn [bind]. rewrite E7. cbn [bind]. apply bindI in H as (q & E8 & H). destruct (pv_behind_ok _ _ E8) as (x & EX). rewrite EX. cbn [bind]. rewrite UT. eexists; reflexivity.
Qed.
Lemma unmarshal_cap b s : unmarshal32 b = Ok s -> unmarshalC b = Ok s.
Proof.
  unfold unmarshal32, unmarshalC. intros H. apply (bind_mono _ _ _ _ _ H); [intros a; apply ld_read_cap|]. intros (ld & b1) _ H1. apply (bind_mono _ _ _ _ _ H1); [intros a; apply ls_read_cap|auto].
Qed.
Lemma extra_ok b more s : unmarshal32 b = Ok s -> exists ex, extra_of b more = Ok ex /\ ex_dunknown ex = false /\ ex_sunknown ex = false.
Proof.
  unfold unmarshal32, extra_of. intros U. apply bindI in U as ((ld & b1) & E1 & U). destruct (ld_behind_ok _ _ E1) as (x1 & B1). rewrite B1. cbn [bind]. rewrite (ld_read_cap _ _ E1). cbn [bind].
  apply bindI in U as ((ls & b2) & E2 & U). destruct (ls_behind_ok _ _ E2) as (x2 & B2). rewrite B2. cbn [bind]. rewrite (ls_read_cap _ _ E2). cbn [bind].
  apply bindI in U as ((dv & b3) & E3 & U). destruct (vv_behind_ok _ _ E3) as (x3 & B3). rewrite B3. cbn [bind]. rewrite E3. cbn [bind].
  apply bindI in U as ((sv & b4) & E4 & U). destruct (vv_behind_ok _ _ E4) as (x4 & B4). rewrite B4. cbn [bind]. eexists; split; [reflexivity|]. split; reflexivity.
Qed.
(** Where Get answers without looking behind a slice, unmarshal_get answers the same. *)
Lemma unmarshal_get_same fp b more key s x : unmarshal32 b = Ok s -> surf_get32 fp s key = Ok x -> unmarshal_get fp b more key = Ok x.
Proof. intros U G. unfold unmarshal_get. rewrite (unmarshal_cap _ _ U). cbn [bind]. destruct (extra_ok b more s U) as (ex & E & U1 & U2). rewrite E. cbn [bind]. now apply get_cap. Qed.
Theorem built_get_cap fp vs h r keys vals hint s rest more : valid_input vs h r keys vals -> (N.of_nat (length keys) < 8388608)%N -> Forall shortkey keys -> fits32 (length keys * vs) ->
  built32 fp vs h r keys vals hint s ->
  (forall i k v, nth_error keys i = Some k -> nth_error vals i = Some v -> unmarshal_get fp (marshal32 s ++ rest) more k = Ok (Some (firstn vs v))) /\
  (forall q, wf_bytes q = true -> shortkey q -> unmarshal_get fp (marshal32 s ++ rest) more q = surf_get32 fp s q).
Proof.
  intros V SM SK FV B32. destruct (restored32 fp vs h r keys vals hint s V SM SK FV B32) as (_ & R). specialize (R rest).
  pose proof B32 as B. apply (built32_iff fp vs h r keys vals hint s V SM SK FV) in B. split.
  - intros i k v EK EV. eapply unmarshal_get_same; [exact R|]. rewrite (get32_same fp vs h r keys vals hint s k V B SM FV).
    + eapply get_stored; eauto.
    + pose proof (v_byte _ _ _ _ _ V) as F. rewrite Forall_forall in F. apply F. eapply nth_error_In; eauto.
    + rewrite Forall_forall in SK. apply SK. eapply nth_error_In; eauto.
  - intros q WQ SQ. destruct (get_total fp vs h r keys vals hint s q V B WQ) as (x & G). rewrite <- (get32_same fp vs h r keys vals hint s q V B SM FV WQ SQ) in G. rewrite G. eapply unmarshal_get_same; eauto.
Qed.
