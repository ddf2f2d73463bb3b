(** * SurfBufTop: what changes of the buffer do to an unmarshalled filter. *)
From Verif Require Import Base BitsModel VecModel VecProofs2 SurfModel SurfMarshal SurfMarshalProofs SurfBuf SurfBufSpec SurfBufProofs SurfAlias SurfAliasProofs SurfSize SurfSpec SurfTop SurfEnc SurfBuildTop.

Theorem view_unmarshal m s : unmarshal m = Ok s <-> exists f, unmarshalR m = Ok f /\ surf_view m f = s.
Proof.
  rewrite unmarshalR_ok. destruct (unmarshalR m) as [f| |]; cbn [mapres]; split.
  - intros E. apply OkI in E. eauto.
  - intros (f' & E & <-). apply OkI in E. now subst.
  - discriminate.
  - intros (f' & E & _). discriminate.
  - discriminate.
  - intros (f' & E & _). discriminate.
Qed.

(* ------------------------------------------------------------------ *)
(** ** Bytes not in use *)
Lemma list_ext {A} (l l' : list A) : (forall i, nth_error l i = nth_error l' i) -> l = l'.
Proof.
  revert l'. induction l as [|x l IH]; intros [|y l'] H; auto.
  - specialize (H 0). discriminate.
  - specialize (H 0). discriminate.
  - pose proof (H 0) as H0. cbn in H0. injection H0 as ->. f_equal. apply IH. intros i. apply (H (S i)).
Qed.
Lemma nth_firstn {A} n : forall (l : list A) i, nth_error (firstn n l) i = if Nat.ltb i n then nth_error l i else None.
Proof.
  induction n as [|n IH]; intros [|x l] [|i]; cbn [firstn nth_error]; auto.
  - now destruct (Nat.ltb _ _).
  - rewrite IH. reflexivity.
Qed.
Lemma nth_skipn' {A} n : forall (l : list A) i, nth_error (skipn n l) i = nth_error l (n + i).
Proof. induction n as [|n IH]; intros [|x l] i; cbn [skipn Nat.add nth_error]; auto. now destruct i. Qed.
Lemma ref_agree m m' r : (forall i, r_off r <= i < r_off r + r_len r -> nth_error m' i = nth_error m i) -> ref_bytes m' r = ref_bytes m r.
Proof.
  intros H. apply list_ext. intros i. unfold ref_bytes. rewrite !nth_firstn, !nth_skipn'. destruct (Nat.ltb_spec i (r_len r)); auto. apply H. lia.
Qed.
Theorem unused_bytes m m' f : (forall i, in_use f i -> nth_error m' i = nth_error m i) -> surf_view m' f = surf_view m f.
Proof.
  intros H. assert (X : forall r, In r (refs f) -> ref_bytes m' r = ref_bytes m r) by (intros r Hr; apply ref_agree; intros i Hi; apply H; exists r; auto). clear H.
  destruct f as [[lb hc ip sx px ht] [a b c d l hc2 lo sx2 px2] dv sv].
  destruct lb as [x1 x2 x3 x4], hc as [x5 x6 x7 x8], ip as [y1 y2 y3 y4], sx as [y5 sb y6 y7 y8], px as [[z1 z2 z3 z4] z5 z6], hc2 as [w1 w2 w3 w4], lo as [w5 w6 w7 w8], sx2 as [v1 sb2 v2 v3 v4], px2 as [[u1 u2 u3 u4] u5 u6], dv as [t1 t2], sv as [t3 t4].
  unfold surf_view, ld_view, ls_view, pv_view, rv_view, sv_view, xv_view, vv_view, ref_u64, ref_u32.
  cbn [qf_ld qf_ls qf_dv qf_sv qd_label qd_hasChild qd_isPrefix qd_suffixes qd_prefix qd_height qe_height qe_startLevel qe_denseNodeCount qe_denseChildCount qe_label qe_hasChild qe_louds qe_suffixes qe_prefix
    qr_numBits qr_blockSize qr_bits qr_lut qs_numBits qs_numOnes qs_bits qs_lut qx_numBits qx_bits qx_type qx_hashLen qx_realLen qp_has qp_offsets qp_data qv_bytes qv_valueSize] in *.
  unfold refs, pv_refs, rv_refs, sv_refs, xv_refs in X.
  cbn [qf_ld qf_ls qf_dv qf_sv qd_label qd_hasChild qd_isPrefix qd_suffixes qd_prefix qd_height qe_height qe_startLevel qe_denseNodeCount qe_denseChildCount qe_label qe_hasChild qe_louds qe_suffixes qe_prefix
    qr_numBits qr_blockSize qr_bits qr_lut qs_numBits qs_numOnes qs_bits qs_lut qx_numBits qx_bits qx_type qx_hashLen qx_realLen qp_has qp_offsets qp_data qv_bytes qv_valueSize] in X.
  rewrite !X by (rewrite ?in_app_iff; cbn [In]; tauto).
  assert (Y : match sb with Some r => bytesToU64Slice (ref_bytes m' r) | None => [] end = match sb with Some r => bytesToU64Slice (ref_bytes m r) | None => [] end).
  { destruct sb as [r|]; auto. rewrite X; auto. rewrite ?in_app_iff; cbn [In]; tauto. }
  assert (Y2 : match sb2 with Some r => bytesToU64Slice (ref_bytes m' r) | None => [] end = match sb2 with Some r => bytesToU64Slice (ref_bytes m r) | None => [] end).
  { destruct sb2 as [r|]; auto. rewrite X; auto. rewrite ?in_app_iff; cbn [In]; tauto. }
  now rewrite Y, Y2.
Qed.

(* ------------------------------------------------------------------ *)
(** ** Two buffers with the same counts have their slices at the same places *)
Section Same.
Variables m m' : bytes.
Hypothesis LEN : length m = length m'.

Lemma slice_same o a b : sliceR m o a b = sliceR m' o a b.
Proof. unfold sliceR. now rewrite LEN. Qed.
Lemma from_same o a : fromR m o a = fromR m' o a.
Proof. unfold fromR. now rewrite LEN. Qed.

Ltac step H := apply bindI in H as (? & ? & H).
(** Equal requests for slices have equal results. *)
Ltac uniq := repeat match goal with
  | A : sliceR m _ _ _ = Ok _ |- _ => rewrite slice_same in A
  | A : fromR m _ _ = Ok _ |- _ => rewrite from_same in A end;
  repeat match goal with
  | A : sliceR m' ?o ?a ?b = Ok ?r, B : sliceR m' ?o ?a ?b = Ok ?q |- _ => let E := fresh in assert (E : q = r) by congruence; subst q; clear B
  | A : fromR m' ?o ?a = Ok ?r, B : fromR m' ?o ?a = Ok ?q |- _ => let E := fresh in assert (E : q = r) by congruence; subst q; clear B end.
Lemma sliceR_is x o a b r : sliceR x o a b = Ok r -> r = mkRef (o + a) (b - a) /\ a <= b.
Proof. unfold sliceR. destruct (Nat.leb a b) eqn:E; cbn [andb]; [|discriminate]. destruct (Nat.leb b _); [|discriminate]. intros H. apply OkI in H. apply Nat.leb_le in E. auto. Qed.

Lemma vv_same o L p L' p' : vv_readR m o = Ok (L, p) -> vv_readR m' o = Ok (L', p') ->
  vv_valueSize (vv_view m L) = vv_valueSize (vv_view m' L') -> length (vv_bytes (vv_view m L)) = length (vv_bytes (vv_view m' L')) -> L = L' /\ p = p'.
Proof.
  unfold vv_readR. intros A B E1 E2. apply bindI in A as (sz & _ & A). step A. apply bindI in A as (vs & _ & A). apply bindI in A as (bs & S1 & A). apply bindI in A as (q & F1 & A).
  apply bindI in B as (sz' & _ & B). step B. apply bindI in B as (vs' & _ & B). apply bindI in B as (bs' & S2 & B). apply bindI in B as (q' & F2 & B).
  apply OkI in A, B. injection A as <- <-. injection B as <- <-. cbn in E1, E2. subst vs'.
  rewrite (sliceR_len _ _ _ _ _ S1), (sliceR_len _ _ _ _ _ S2) in E2. destruct (sliceR_is _ _ _ _ _ S1) as (-> & _). destruct (sliceR_is _ _ _ _ _ S2) as (-> & _). cbn [r_len] in E2.
  assert (sz' = sz) by lia. subst sz'. uniq. auto.
Qed.
Lemma lab_same o L p L' p' : lab_readR m o = Ok (L, p) -> lab_readR m' o = Ok (L', p') -> length (ref_bytes m L) = length (ref_bytes m' L') -> L = L' /\ p = p'.
Proof.
  unfold lab_readR. intros A B E2. apply bindI in A as (sz & _ & A). apply bindI in A as (bs & S1 & A). apply bindI in A as (q & F1 & A).
  apply bindI in B as (sz' & _ & B). apply bindI in B as (bs' & S2 & B). apply bindI in B as (q' & F2 & B).
  apply OkI in A, B. injection A as <- <-. injection B as <- <-.
  rewrite (sliceR_len _ _ _ _ _ S1), (sliceR_len _ _ _ _ _ S2) in E2. destruct (sliceR_is _ _ _ _ _ S1) as (-> & _). destruct (sliceR_is _ _ _ _ _ S2) as (-> & _). cbn [r_len] in E2.
  assert (sz' = sz) by lia. subst sz'. uniq. auto.
Qed.
Lemma rv_same o L p L' p' : rv_readR m o = Ok (L, p) -> rv_readR m' o = Ok (L', p') ->
  bv_numBits (rv_bv (rv_view m L)) = bv_numBits (rv_bv (rv_view m' L')) -> rv_blockSize (rv_view m L) = rv_blockSize (rv_view m' L') -> L = L' /\ p = p'.
Proof.
  unfold rv_readR. cbv zeta. intros A B E1 E2. apply bindI in A as (nb & _ & A). step A. apply bindI in A as (blk & _ & A). apply bindI in A as (ws & S1 & A). destruct (Nat.eqb blk 0) eqn:Z1; [discriminate|].
  apply bindI in A as (lut & T1 & A). apply bindI in A as (q & F1 & A).
  apply bindI in B as (nb' & _ & B). step B. apply bindI in B as (blk' & _ & B). apply bindI in B as (ws' & S2 & B). destruct (Nat.eqb blk' 0) eqn:Z2; [discriminate|].
  apply bindI in B as (lut' & T2 & B). apply bindI in B as (q' & F2 & B).
  apply OkI in A, B. injection A as <- <-. injection B as <- <-. cbn in E1, E2. subst nb' blk'. uniq. auto.
Qed.
Lemma sv_same o L p L' p' : sv_readR m o = Ok (L, p) -> sv_readR m' o = Ok (L', p') ->
  bv_numBits (sv_bv (sv_view m L)) = bv_numBits (sv_bv (sv_view m' L')) -> sv_numOnes (sv_view m L) = sv_numOnes (sv_view m' L') -> L = L' /\ p = p'.
Proof.
  unfold sv_readR. cbv zeta. intros A B E1 E2. apply bindI in A as (nb & _ & A). step A. apply bindI in A as (no & _ & A). apply bindI in A as (ws & S1 & A).
  apply bindI in A as (lut & T1 & A). apply bindI in A as (q & F1 & A).
  apply bindI in B as (nb' & _ & B). step B. apply bindI in B as (no' & _ & B). apply bindI in B as (ws' & S2 & B).
  apply bindI in B as (lut' & T2 & B). apply bindI in B as (q' & F2 & B).
  apply OkI in A, B. injection A as <- <-. injection B as <- <-. cbn in E1, E2. subst nb' no'. uniq. auto.
Qed.
Lemma pv_same o L p L' p' : pv_readR m o = Ok (L, p) -> pv_readR m' o = Ok (L', p') -> pv_view m L = pv_view m' L' -> L = L' /\ p = p'.
Proof.
  unfold pv_readR. intros A B E. apply bindI in A as ((has & o1) & R1 & A). apply bindI in A as (ol & _ & A). step A. apply bindI in A as (dl & _ & A). apply bindI in A as (os & S1 & A). apply bindI in A as (ds & T1 & A). apply bindI in A as (q & F1 & A).
  apply bindI in B as ((has' & o1') & R2 & B). apply bindI in B as (ol' & _ & B). step B. apply bindI in B as (dl' & _ & B). apply bindI in B as (os' & S2 & B). apply bindI in B as (ds' & T2 & B). apply bindI in B as (q' & F2 & B).
  apply OkI in A, B. injection A as <- <-. injection B as <- <-. unfold pv_view in E. cbn [qp_has qp_offsets qp_data] in E. injection E as E1 E2 E3 E4 E5 E6.
  destruct (rv_same _ _ _ _ _ R1 R2) as (<- & <-); auto. apply (f_equal (@length nat)) in E5, E6.
  rewrite (sliceR_len _ _ _ _ _ S1), (sliceR_len _ _ _ _ _ S2) in E5. rewrite (sliceR_len _ _ _ _ _ T1), (sliceR_len _ _ _ _ _ T2) in E6.
  destruct (sliceR_is _ _ _ _ _ S1) as (-> & _). destruct (sliceR_is _ _ _ _ _ S2) as (-> & _). destruct (sliceR_is _ _ _ _ _ T1) as (-> & _). destruct (sliceR_is _ _ _ _ _ T2) as (-> & _). cbn [r_len] in *.
  assert (ol' = ol) by lia. subst ol'. assert (dl' = dl) by lia. subst dl'. uniq. auto.
Qed.
Lemma xv_same o L p L' p' : xv_readR m o = Ok (L, p) -> xv_readR m' o = Ok (L', p') -> xv_view m L = xv_view m' L' -> L = L' /\ p = p'.
Proof.
  unfold xv_readR. intros A B E. apply bindI in A as (nb & _ & A). step A. apply bindI in A as (t & _ & A). step A. apply bindI in A as (hl & _ & A). step A. apply bindI in A as (rl & _ & A). apply bindI in A as ((ws & cu) & S1 & A). apply bindI in A as (q & F1 & A).
  apply bindI in B as (nb' & _ & B). step B. apply bindI in B as (t' & _ & B). step B. apply bindI in B as (hl' & _ & B). step B. apply bindI in B as (rl' & _ & B). apply bindI in B as ((ws' & cu') & S2 & B). apply bindI in B as (q' & F2 & B).
  apply OkI in A, B. injection A as <- <-. injection B as <- <-. unfold xv_view in E. cbn [qx_numBits qx_bits qx_type qx_hashLen qx_realLen] in E. injection E as -> _ -> -> ->.
  destruct (suffixType_eqb t' NoneSuffix).
  - apply OkI in S1, S2. injection S1 as <- <-. injection S2 as <- <-. uniq. auto.
  - apply bindI in S1 as (w & S1 & X1). apply bindI in S2 as (w' & S2 & X2). apply OkI in X1, X2. injection X1 as <- <-. injection X2 as <- <-. uniq. auto.
Qed.
Lemma ld_same o L p L' p' v : ld_readR m o = Ok (L, p) -> ld_readR m' o = Ok (L', p') -> ld_view m L v = ld_view m' L' v -> L = L' /\ p = p'.
Proof.
  unfold ld_readR. intros A B E. apply bindI in A as (h & _ & A). apply bindI in A as (b0 & G1 & A). apply bindI in A as ((x1 & b1) & R1 & A). apply bindI in A as ((x2 & b2) & R2 & A). apply bindI in A as ((x3 & b3) & R3 & A).
  apply bindI in A as ((x4 & b4) & R4 & A). apply bindI in A as ((x5 & b5) & R5 & A). apply bindI in A as (q & F1 & A).
  apply bindI in B as (h' & _ & B). apply bindI in B as (c0 & G2 & B). apply bindI in B as ((y1 & c1) & Q1 & B). apply bindI in B as ((y2 & c2) & Q2 & B). apply bindI in B as ((y3 & c3) & Q3 & B).
  apply bindI in B as ((y4 & c4) & Q4 & B). apply bindI in B as ((y5 & c5) & Q5 & B). apply bindI in B as (q' & F2 & B).
  apply OkI in A, B. injection A as <- <-. injection B as <- <-. unfold ld_view in E. cbn [qd_label qd_hasChild qd_isPrefix qd_suffixes qd_prefix qd_height] in E.
  assert (E1 : rv_view m x1 = rv_view m' y1) by exact (f_equal ld_label E). assert (E2 : rv_view m x2 = rv_view m' y2) by exact (f_equal ld_hasChild E).
  assert (E3 : rv_view m x3 = rv_view m' y3) by exact (f_equal ld_isPrefix E). assert (E4 : xv_view m x4 = xv_view m' y4) by exact (f_equal ld_suffixes E).
  assert (E5 : pv_view m x5 = pv_view m' y5) by exact (f_equal ld_prefix E). assert (E6 : h = h') by exact (f_equal ld_height E). clear E. subst h'. uniq.
  destruct (rv_same _ _ _ _ _ R1 Q1) as (<- & <-); try (now rewrite E1). destruct (rv_same _ _ _ _ _ R2 Q2) as (<- & <-); try (now rewrite E2). destruct (rv_same _ _ _ _ _ R3 Q3) as (<- & <-); try (now rewrite E3).
  destruct (xv_same _ _ _ _ _ R4 Q4 E4) as (<- & <-). destruct (pv_same _ _ _ _ _ R5 Q5 E5) as (<- & <-). rewrite LEN in F1. uniq. auto.
Qed.
Lemma ls_same o L p L' p' v : ls_readR m o = Ok (L, p) -> ls_readR m' o = Ok (L', p') -> ls_view m L v = ls_view m' L' v -> L = L' /\ p = p'.
Proof.
  unfold ls_readR. intros A B E. apply bindI in A as (h & _ & A). apply bindI in A as (a0 & G1 & A). apply bindI in A as (st & _ & A). apply bindI in A as (a1 & G2 & A). apply bindI in A as (dn & _ & A). apply bindI in A as (a2 & G3 & A).
  apply bindI in A as (dc & _ & A). apply bindI in A as (b0 & G4 & A). apply bindI in A as ((x1 & b1) & R1 & A). apply bindI in A as ((x2 & b2) & R2 & A). apply bindI in A as ((x3 & b3) & R3 & A).
  apply bindI in A as ((x4 & b4) & R4 & A). apply bindI in A as ((x5 & b5) & R5 & A). apply bindI in A as (q & F1 & A).
  apply bindI in B as (h' & _ & B). apply bindI in B as (a0' & H1 & B). apply bindI in B as (st' & _ & B). apply bindI in B as (a1' & H2 & B). apply bindI in B as (dn' & _ & B). apply bindI in B as (a2' & H3 & B).
  apply bindI in B as (dc' & _ & B). apply bindI in B as (c0 & H4 & B). apply bindI in B as ((y1 & c1) & Q1 & B). apply bindI in B as ((y2 & c2) & Q2 & B). apply bindI in B as ((y3 & c3) & Q3 & B).
  apply bindI in B as ((y4 & c4) & Q4 & B). apply bindI in B as ((y5 & c5) & Q5 & B). apply bindI in B as (q' & F2 & B).
  apply OkI in A, B. injection A as <- <-. injection B as <- <-. unfold ls_view in E. cbn [qe_height qe_startLevel qe_denseNodeCount qe_denseChildCount qe_label qe_hasChild qe_louds qe_suffixes qe_prefix] in E.
  assert (E1 : ref_bytes m x1 = ref_bytes m' y1) by exact (f_equal ls_label E). assert (E2 : rv_view m x2 = rv_view m' y2) by exact (f_equal ls_hasChild E).
  assert (E3 : sv_view m x3 = sv_view m' y3) by exact (f_equal ls_louds E). assert (E4 : xv_view m x4 = xv_view m' y4) by exact (f_equal ls_suffixes E).
  assert (E5 : pv_view m x5 = pv_view m' y5) by exact (f_equal ls_prefix E). assert (E6 : h = h') by exact (f_equal ls_height E). assert (E7 : st = st') by exact (f_equal ls_startLevel E).
  assert (E8 : dn = dn') by exact (f_equal ls_denseNodeCount E). assert (E9 : dc = dc') by exact (f_equal ls_denseChildCount E). clear E. subst h' st' dn' dc'. uniq.
  destruct (lab_same _ _ _ _ _ R1 Q1) as (<- & <-); try (now rewrite E1). destruct (rv_same _ _ _ _ _ R2 Q2) as (<- & <-); try (now rewrite E2). destruct (sv_same _ _ _ _ _ R3 Q3) as (<- & <-); try (now rewrite E3).
  destruct (xv_same _ _ _ _ _ R4 Q4 E4) as (<- & <-). destruct (pv_same _ _ _ _ _ R5 Q5 E5) as (<- & <-). rewrite LEN in F1. uniq. auto.
Qed.
(** The filters differ at most in the bytes of their values. *)
Definition same_shape (s s' : surf) : Prop :=
  ld_setValues (s_ld s) (ld_values (s_ld s')) = s_ld s' /\ ls_setValues (s_ls s) (ls_values (s_ls s')) = s_ls s' /\
  vv_valueSize (ld_values (s_ld s)) = vv_valueSize (ld_values (s_ld s')) /\ length (vv_bytes (ld_values (s_ld s))) = length (vv_bytes (ld_values (s_ld s'))) /\
  vv_valueSize (ls_values (s_ls s)) = vv_valueSize (ls_values (s_ls s')) /\ length (vv_bytes (ls_values (s_ls s))) = length (vv_bytes (ls_values (s_ls s'))).
Lemma surf_same f f' : unmarshalR m = Ok f -> unmarshalR m' = Ok f' -> same_shape (surf_view m f) (surf_view m' f') -> f = f'.
Proof.
  unfold unmarshalR. intros A B (E1 & E2 & E3 & E4 & E5 & E6).
  apply bindI in A as ((x1 & b1) & R1 & A). apply bindI in A as ((x2 & b2) & R2 & A). apply bindI in A as ((x3 & b3) & R3 & A). apply bindI in A as ((x4 & b4) & R4 & A).
  apply bindI in B as ((y1 & c1) & Q1 & B). apply bindI in B as ((y2 & c2) & Q2 & B). apply bindI in B as ((y3 & c3) & Q3 & B). apply bindI in B as ((y4 & c4) & Q4 & B).
  apply OkI in A, B. subst f f'. cbn [surf_view s_ld s_ls qf_ld qf_ls qf_dv qf_sv] in *.
  destruct (ld_same _ _ _ _ _ _ R1 Q1 E1) as (<- & <-). destruct (ls_same _ _ _ _ _ _ R2 Q2 E2) as (<- & <-).
  destruct (vv_same _ _ _ _ _ R3 Q3 E3 E4) as (<- & <-). destruct (vv_same _ _ _ _ _ R4 Q4 E5 E6) as (<- & <-). reflexivity.
Qed.
End Same.

(* ------------------------------------------------------------------ *)
(** ** Filters made by Build *)
Definition mapvv (g : byte -> byte) (v : valueVector) : valueVector := mkVV (map g (vv_bytes v)) (vv_valueSize v).
(** The filter with [g] applied to every byte of its values. *)
Definition remap (g : byte -> byte) (s : surf) : surf :=
  mkSurf (ld_setValues (s_ld s) (mapvv g (ld_values (s_ld s)))) (ls_setValues (s_ls s) (mapvv g (ls_values (s_ls s)))).
Lemma remap_find fp g s q : surf_find fp (remap g s) q = surf_find fp s q.
Proof.
  rewrite <- (find_up fp (fun _ => []) 0 (remap g s)), <- (find_up fp (fun _ => []) 0 s). f_equal.
  assert (N : forall l : bytes, flat_map (fun b : nat => firstn 0 ([] : bytes)) l = []) by (induction l; auto).
  unfold ups, upld, upls, upvv, fv, remap, ld_setValues, ls_setValues. cbn [s_ld s_ls ld_values ls_values ld_label ld_hasChild ld_isPrefix ld_suffixes ld_prefix ld_height
    ls_height ls_startLevel ls_denseNodeCount ls_denseChildCount ls_label ls_hasChild ls_louds ls_suffixes ls_prefix]. now rewrite !N.
Qed.
Lemma slice_map {A B} (g : A -> B) l a b : slice (map g l) a b = mapres (map g) (slice l a b).
Proof. unfold slice. rewrite map_length. destruct (_ && _); cbn [mapres]; auto. now rewrite skipn_map, firstn_map. Qed.
Lemma remap_get fp g s q : surf_get fp (remap g s) q = mapres (option_map (map g)) (surf_get fp s q).
Proof.
  rewrite !get_find, remap_find. destruct (surf_find fp s q) as [[[p pos]|]| |]; cbn [bind mapres]; auto.
  assert (X : valueVector_get (part_values (remap g s) p) pos = mapres (map g) (valueVector_get (part_values s p) pos)).
  { destruct p; unfold valueVector_get, part_values, remap; cbn [s_ld s_ls ld_setValues ls_setValues ld_values ls_values mapvv vv_bytes vv_valueSize]; cbv zeta; apply slice_map. }
  rewrite X. clear X. now destruct (valueVector_get (part_values s p) pos).
Qed.
Lemma remap_size g s : marshalNoValueSize (remap g s) = marshalNoValueSize s /\ marshalSize (remap g s) = marshalSize s.
Proof. unfold marshalNoValueSize, marshalSize, vv_size, vv_rawSize. cbn [remap s_ld s_ls ld_setValues ls_setValues ld_values ls_values mapvv vv_bytes]. rewrite !map_length. split; reflexivity. Qed.
Lemma remap_shape g s : same_shape s (remap g s).
Proof. unfold same_shape. cbn [remap s_ld s_ls ld_setValues ls_setValues ld_values ls_values mapvv vv_bytes vv_valueSize]. rewrite !map_length. repeat split; auto. Qed.
Lemma same_shape_refl s : same_shape s s.
Proof. unfold same_shape. destruct s as [[] []]. cbn. repeat split; auto. Qed.

Lemma firstn_pre {A} (a b : list A) : firstn (length a) (a ++ b) = a.
Proof. rewrite firstn_app, Nat.sub_diag, firstn_all. apply app_nil_r. Qed.
Section Built.
Variables (fp : bytes -> N) (vs h r : nat) (keys vals : list bytes) (hint : Z) (s : surf).
Hypothesis V : valid_input vs h r keys vals.
Hypothesis B : built fp vs h r keys vals hint s.
Hypothesis F : fields_fit s.
Lemma built_wf : ld_wf (s_ld s) /\ ls_wf (s_ls s).
Proof. destruct (built_rep _ _ _ _ _ _ _ _ V B) as (cut & R & _). exact (surf_wf _ (mkcfg vs h r) _ _ _ (v_suffix _ _ _ _ _ V) R F). Qed.
Lemma remap_wf g : ld_wf (s_ld (remap g s)) /\ ls_wf (s_ls (remap g s)).
Proof.
  destruct built_wf as (W1 & W2). split; constructor; cbn [remap s_ld s_ls]; try apply W1; try apply W2; unfold vv_wf, ld_setValues, ls_setValues; cbn [ld_values ls_values mapvv vv_bytes vv_valueSize]; rewrite map_length; [apply W1|apply W2].
Qed.
Lemma in_buffer rest : exists f, unmarshalR (marshal s ++ rest) = Ok f /\ surf_view (marshal s ++ rest) f = s.
Proof. apply view_unmarshal. exact (built_roundtrip fp vs h r keys vals hint s V B F rest). Qed.
(** The buffer is overwritten by the bytes of the filter with other values. *)
Lemma overwritten g rest rest' f : length rest = length rest' -> unmarshalR (marshal s ++ rest) = Ok f -> surf_view (marshal (remap g s) ++ rest') f = remap g s.
Proof.
  intros L E. destruct (in_buffer rest) as (f1 & E1 & VW). assert (f1 = f) by congruence. subst f1.
  destruct (remap_wf g) as (W1 & W2). pose proof (unmarshal_marshal (remap g s) rest' W1 W2) as U. apply view_unmarshal in U as (f' & E2 & VW').
  assert (LEN : length (marshal s ++ rest) = length (marshal (remap g s) ++ rest')).
  { rewrite !app_length, (marshal_length s), (marshal_length (remap g s)), (proj2 (remap_size g s)), L; auto; apply built_wf. }
  assert (f = f') as <-; auto. apply (surf_same _ _ LEN _ _ E1 E2). rewrite VW, VW'. apply remap_shape.
Qed.
Lemma remap_id : remap (fun b => b) s = s.
Proof. unfold remap, mapvv, ld_setValues, ls_setValues. rewrite !map_id. destruct s as [[? ? ? ? [] ? ?] [? ? ? ? ? ? ? ? [] ?]]. reflexivity. Qed.
(** Bytes behind the filter. *)
Theorem trailing_bytes rest : exists f, unmarshalR (marshal s ++ rest) = Ok f /\
  forall rest', length rest' = length rest -> surf_view (marshal s ++ rest') f = s.
Proof.
  destruct (in_buffer rest) as (f & E & _). exists f. split; auto. intros rest' L. rewrite <- remap_id at 1. rewrite (overwritten (fun b => b) rest rest' f); auto. apply remap_id.
Qed.
(** Bytes of the values. *)
Theorem value_bytes rest g : exists f m', unmarshalR (marshal s ++ rest) = Ok f /\
  length m' = length (marshal s ++ rest) /\ firstn (marshalNoValueSize s) m' = firstn (marshalNoValueSize s) (marshal s) /\ skipn (marshalSize s) m' = rest /\
  forall i k v, nth_error keys i = Some k -> nth_error vals i = Some v -> surf_get fp (surf_view m' f) k = Ok (Some (map g (firstn vs v))).
Proof.
  destruct (in_buffer rest) as (f & E & _). exists f, (marshal (remap g s) ++ rest). destruct built_wf as (W1 & W2). destruct (remap_wf g) as (X1 & X2).
  pose proof (marshal_length s W1 W2) as L1. pose proof (marshal_length (remap g s) X1 X2) as L2. destruct (remap_size g s) as (Z1 & Z2).
  split; auto. split; [rewrite !app_length; lia|]. split; [|split].
  - assert (Q : forall s', ld_wf (s_ld s') -> ls_wf (s_ls s') -> marshal s' = (ld_write (s_ld s') ++ ls_write (s_ls s')) ++ vv_write (ld_values (s_ld s')) ++ vv_write (ls_values (s_ls s')) /\ length (ld_write (s_ld s') ++ ls_write (s_ls s')) = marshalNoValueSize s').
    { intros s' Y1 Y2. split; [unfold marshal; now rewrite <- !app_assoc|]. rewrite app_length, ld_write_length, ls_write_length; auto. }
    destruct (Q _ W1 W2) as (-> & QL). destruct (Q _ X1 X2) as (-> & QL'). rewrite <- app_assoc. rewrite <- QL at 2. rewrite <- Z1 at 1. rewrite <- QL' at 1. now rewrite !firstn_pre.
  - rewrite <- Z2, <- L2. rewrite skipn_app, Nat.sub_diag, skipn_all. reflexivity.
  - intros i k v Hk Hv. rewrite (overwritten g rest rest f eq_refl E), remap_get. rewrite (get_stored fp vs h r keys vals hint s i k v V B Hk Hv). reflexivity.
Qed.
Theorem reuse_wrong rest : 0 < vs -> exists f m', unmarshalR (marshal s ++ rest) = Ok f /\
  length m' = length (marshal s ++ rest) /\ firstn (marshalNoValueSize s) m' = firstn (marshalNoValueSize s) (marshal s) /\ skipn (marshalSize s) m' = rest /\
  forall i k v, nth_error keys i = Some k -> nth_error vals i = Some v -> exists w, surf_get fp (surf_view m' f) k = Ok (Some w) /\ w <> firstn vs v.
Proof.
  intros P. destruct (value_bytes rest (fun b => if Nat.eqb b 0 then 1 else 0)) as (f & m' & E & L & S1 & S2 & G). exists f, m'. repeat (split; auto).
  intros i k v Hk Hv. eexists. split; [exact (G i k v Hk Hv)|].
  assert (Lv : vs <= length v).
  { pose proof (v_size _ _ _ _ _ V) as A. rewrite Forall_forall in A. apply A. assert (i < length keys) by (apply nth_error_Some; congruence).
    apply nth_error_In with (n := i). rewrite nth_firstn. destruct (Nat.ltb_spec i (length keys)); [auto|lia]. }
  destruct v as [|x v]; [cbn in Lv; lia|]. destruct vs as [|n]; [lia|]. cbn [firstn map]. intros Q. injection Q as Q _. destruct (Nat.eqb_spec x 0); congruence.
Qed.
End Built.
