(** * SurfBufValTop: what the caller's changes of returned values do to an unmarshalled filter. *)
From Verif Require Import Base BitsModel VecModel SurfModel SurfIter SurfMarshal SurfMarshalProofs SurfBuf SurfBufSpec SurfBufProofs SurfBufTop SurfAlias SurfAliasProofs SurfAliasTop SurfBufVal SurfBufValProofs SurfSize SurfSpec SurfTop SurfGetSpec.

(** A slice that the filter hands out. *)
Definition handed (fp : bytes -> N) (m : bytes) (f : surfR) (v : ref) : Prop :=
  (exists q, buf_get fp m f q = Ok (Some v)) \/ (exists it, buf_value m f it = Ok v).

Lemma overwrite_mid {A} (a l c : list A) off xs : off + length xs <= length l -> overwrite (a ++ l ++ c) (length a + off) xs = a ++ overwrite l off xs ++ c.
Proof.
  intros H. apply list_ext. intros i. rewrite nth_error_overwrite by (rewrite !app_length; lia).
  destruct (Nat.lt_ge_cases i (length a)) as [X|X].
  - rewrite !nth_error_app1 by auto. destruct (Nat.leb_spec (length a + off) i); [lia|]. reflexivity.
  - rewrite !(nth_error_app2 a) by auto. destruct (Nat.lt_ge_cases (i - length a) (length l)) as [Y|Y].
    + rewrite !nth_error_app1 by (rewrite ?overwrite_length; auto). rewrite nth_error_overwrite by auto.
      destruct (Nat.leb_spec (length a + off) i), (Nat.leb_spec off (i - length a)); try lia; cbn [andb]; auto.
      destruct (Nat.ltb_spec i (length a + off + length xs)), (Nat.ltb_spec (i - length a) (off + length xs)); try lia; auto. f_equal. lia.
    + rewrite !nth_error_app2 by (rewrite ?overwrite_length; auto). rewrite overwrite_length by auto.
      destruct (Nat.ltb_spec i (length a + off + length xs)); [lia|]. now rewrite andb_false_r.
Qed.
Lemma ref_over_in m r off xs : r_off r + r_len r <= length m -> off + length xs <= r_len r ->
  ref_bytes (overwrite m (r_off r + off) xs) r = overwrite (ref_bytes m r) off xs.
Proof.
  intros L H. assert (LR : length (ref_bytes m r) = r_len r) by (unfold ref_bytes; rewrite firstn_length, skipn_length; lia).
  apply list_ext. intros i. rewrite nth_error_overwrite by lia. unfold ref_bytes. rewrite !nth_firstn, !nth_skipn', nth_error_overwrite by lia.
  destruct (Nat.ltb_spec i (r_len r)) as [X|X].
  - destruct (Nat.leb_spec (r_off r + off) (r_off r + i)), (Nat.leb_spec off i); try lia; cbn [andb]; auto.
    destruct (Nat.ltb_spec (r_off r + i) (r_off r + off + length xs)), (Nat.ltb_spec i (off + length xs)); try lia; auto. f_equal. lia.
  - destruct (Nat.ltb_spec i (off + length xs)); [lia|]. now rewrite andb_false_r.
Qed.
Lemma ref_over_out m r off xs : off + length xs <= length m -> (off + length xs <= r_off r \/ r_off r + r_len r <= off) -> ref_bytes (overwrite m off xs) r = ref_bytes m r.
Proof.
  intros L H. apply ref_agree. intros i Hi. rewrite nth_error_overwrite by auto. destruct (Nat.leb_spec off i), (Nat.ltb_spec i (off + length xs)); cbn [andb]; auto. lia.
Qed.
Lemma overwrite_before {A} (m : list A) b off xs : b <= off -> off + length xs <= length m -> firstn b (overwrite m off xs) = firstn b m.
Proof.
  intros L H. apply list_ext. intros i. rewrite !nth_firstn, nth_error_overwrite by auto. destruct (Nat.ltb_spec i b); auto. destruct (Nat.leb_spec off i); [lia|reflexivity].
Qed.

Section Buf.
Variables (m : bytes) (f : surfR).
Hypothesis U : unmarshalR m = Ok f.
Let s := surf_view m f.

Lemma part_bytes p : vv_bytes (part_values s p) = ref_bytes m (part_ref f p).
Proof. destruct p; reflexivity. Qed.
Lemma part_fits p : r_off (part_ref f p) + r_len (part_ref f p) <= length m.
Proof.
  destruct (refs_order m f U) as (b & _ & A1 & A2 & A3). pose proof (align_bound (8 + r_len (qv_bytes (qf_dv f)))). pose proof (align_bound (8 + r_len (qv_bytes (qf_sv f)))).
  destruct p; cbn [part_ref]; lia.
Qed.
Lemma part_len p : length (ref_bytes m (part_ref f p)) = r_len (part_ref f p).
Proof. pose proof (part_fits p). unfold ref_bytes. rewrite firstn_length, skipn_length. lia. Qed.
(** Bytes of one array are overwritten. *)
Lemma view_part p off xs : off + length xs <= r_len (part_ref f p) ->
  surf_view (overwrite m (r_off (part_ref f p) + off) xs) f = set_bytes s p (overwrite (ref_bytes m (part_ref f p)) off xs).
Proof.
  intros H. destruct (refs_order m f U) as (b & FA & A1 & A2 & A3). pose proof (part_fits p) as PF. pose proof (align_bound (8 + r_len (qv_bytes (qf_dv f)))) as AB.
  rewrite (view_behind m _ f b FA) by (apply overwrite_before; [destruct p; cbn [part_ref]; lia|lia]).
  unfold vv_view. destruct p; cbn [part_ref] in *.
  - rewrite (ref_over_in m (qv_bytes (qf_dv f))) by lia. rewrite (ref_over_out m (qv_bytes (qf_sv f))) by lia. reflexivity.
  - rewrite (ref_over_in m (qv_bytes (qf_sv f))) by lia. rewrite (ref_over_out m (qv_bytes (qf_dv f))) by lia. reflexivity.
Qed.
Lemma slice_fits p pos sl : value_slice s p pos = Ok sl -> sl_part sl = p /\ sl_off sl + sl_len sl <= r_len (part_ref f p) /\ sl_len sl = vv_valueSize (part_values s p).
Proof.
  unfold value_slice. rewrite part_bytes, part_len. cbv zeta. destruct (Nat.leb_spec (pos * vv_valueSize (part_values s p) + vv_valueSize (part_values s p)) (r_len (part_ref f p))) as [L|L]; [|discriminate].
  intros E. apply OkI in E. subst sl. cbn [sl_part sl_off sl_len]. auto.
Qed.
Lemma slice_bytes p pos sl : value_slice s p pos = Ok sl -> ref_bytes m (in_buf f sl) = sl_read s sl.
Proof.
  intros E. destruct (slice_fits _ _ _ E) as (EP & L & _). unfold sl_read. rewrite EP, part_bytes. unfold ref_bytes, in_buf. cbn [r_off r_len]. rewrite EP.
  apply list_ext. intros i. rewrite !nth_firstn, !nth_skipn', nth_firstn, nth_skipn'. destruct (Nat.ltb_spec i (sl_len sl)); auto.
  destruct (Nat.ltb_spec (sl_off sl + i) (r_len (part_ref f p))); [|lia]. f_equal. lia.
Qed.
Lemma store_view p pos sl j b : value_slice s p pos = Ok sl -> j < sl_len sl ->
  exists m', buf_store m (in_buf f sl) j b = Ok m' /\ m' = overwrite m (r_off (part_ref f p) + (sl_off sl + j)) [b] /\ sl_write s sl j b = Ok (surf_view m' f).
Proof.
  intros E Hj. destruct (slice_fits _ _ _ E) as (EP & L & _). unfold buf_store, sl_write. cbn [in_buf r_len r_off]. rewrite (proj2 (Nat.ltb_lt _ _) Hj), EP.
  eexists. split; [reflexivity|]. split; [f_equal; lia|]. rewrite <- Nat.add_assoc, (view_part p (sl_off sl + j) [b]) by (cbn [length]; lia). rewrite part_bytes. reflexivity.
Qed.
Lemma handed_slice fp v : handed fp m f v -> exists p pos sl, value_slice s p pos = Ok sl /\ v = in_buf f sl.
Proof.
  intros [(q & E)|(it & E)].
  - unfold buf_get in E. apply bindI in E as (o & E & X). apply OkI in X. destruct o as [sl|]; [|discriminate]. cbn [option_map] in X. injection X as <-.
    unfold surf_slice in E. apply bindI in E as (o & _ & E). destruct o as [[p pos]|]; [|discriminate]. apply bindI in E as (sl' & E & X). apply OkI in X. injection X as <-. eauto 6.
  - unfold buf_value in E. apply bindI in E as (sl & E & X). apply OkI in X. subst v. unfold it_slice in E. apply bindI in E as ((p & pos) & _ & E). eauto 6.
Qed.

(** Appending whatever to a handed slice. *)
Theorem append_view fp vs h r keys vals hint v xs : valid_input vs h r keys vals -> built fp vs h r keys vals hint s -> handed fp m f v ->
  exists vals', valid_input vs h r keys vals' /\ built fp vs h r keys vals' hint (surf_view (buf_append m v xs) f) /\
    ref_bytes (buf_append m v xs) v = ref_bytes m v.
Proof.
  intros V B HV. unfold buf_append. destruct (Nat.leb_spec (r_len v + length xs) (length m - r_off v)) as [L|L]; [|exists vals; auto].
  destruct (handed_slice fp v HV) as (p & pos & sl & E & ->). destruct (slice_fits _ _ _ E) as (EP & LS & _). pose proof (part_fits p) as PF.
  set (v := in_buf f sl) in *. assert (VE : r_off v + r_len v <= length m) by (unfold v, in_buf; cbn [r_off r_len]; rewrite EP; lia).
  assert (LX : r_off v + r_len v + length xs <= length m) by lia. set (m' := overwrite m (r_off v + r_len v) xs).
  assert (LM : length m' = length m) by (unfold m'; now apply overwrite_length).
  destruct (refs_order m f U) as (b & FA & A1 & A2 & A3). assert (BV : b <= r_off v + r_len v) by (unfold v, in_buf; cbn [r_off r_len]; rewrite EP; destruct p; cbn [part_ref]; lia).
  pose proof (view_behind m m' f b FA (overwrite_before _ _ _ _ BV LX)) as VW. fold s in VW.
  assert (RL : forall q, length (ref_bytes m' (part_ref f q)) = length (vv_bytes (part_values s q))).
  { intros q. rewrite part_bytes. unfold ref_bytes. rewrite !firstn_length, !skipn_length. lia. }
  destruct (built_up _ _ _ _ _ _ _ _ V B) as (s1 & B1 & ES).
  pose proof (RL DensePart) as R1. pose proof (RL SparsePart) as R2. rewrite ES in R1, R2.
  exists (new_vals vs vals s1 (ref_bytes m' (part_ref f DensePart)) (ref_bytes m' (part_ref f SparsePart))).
  split; [eapply new_valid; eauto|]. split.
  - replace (surf_view m' f) with (with_arrays vs vals s1 (ref_bytes m' (part_ref f DensePart)) (ref_bytes m' (part_ref f SparsePart))); [eapply arrays_built; eauto|].
    rewrite VW. unfold with_arrays. rewrite <- ES. unfold vv_view. cbn [part_ref].
    assert (Z1 : vv_valueSize (ld_values (s_ld s)) = vs) by (rewrite ES; reflexivity). assert (Z2 : vv_valueSize (ls_values (s_ls s)) = vs) by (rewrite ES; reflexivity).
    change (qv_valueSize (qf_dv f)) with (vv_valueSize (ld_values (s_ld s))). change (qv_valueSize (qf_sv f)) with (vv_valueSize (ls_values (s_ls s))). now rewrite Z1, Z2.
  - unfold m'. apply ref_over_out; lia.
Qed.
End Buf.

(** ** A buffer that Marshal wrote *)
Section Marshalled.
Variables (fp : bytes -> N) (vs h r : nat) (keys vals : list bytes) (hint : Z) (s : surf).
Hypothesis V : valid_input vs h r keys vals.
Hypothesis B : built fp vs h r keys vals hint s.
Hypothesis F : fields_fit s.
Variables (rest : bytes) (f : surfR).
Let m := marshal s ++ rest.
Hypothesis U : unmarshalR m = Ok f.

Lemma view_m : surf_view m f = s.
Proof. destruct (in_buffer fp vs h r keys vals hint s V B F rest) as (f' & E & VW). fold m in E, VW. assert (f' = f) by congruence. now subst f'. Qed.
Lemma skip_len (l rst : bytes) b : skipn b l = rst -> b <= length l -> b = length l - length rst.
Proof. intros <- L. rewrite skipn_length. lia. Qed.
Lemma places : r_off (part_ref f DensePart) = marshalNoValueSize s + 8 /\ r_off (part_ref f SparsePart) = marshalNoValueSize s + vv_size (ld_values (s_ld s)) + 8.
Proof.
  destruct (built_wf fp vs h r keys vals hint s V B F) as (W1 & W2). pose proof U as A. unfold unmarshalR in A.
  apply bindI in A as ((x1 & b1) & R1 & A). apply bindI in A as ((x2 & b2) & R2 & A). apply bindI in A as ((x3 & b3) & R3 & A). apply bindI in A as ((x4 & b4) & R4 & A). apply OkI in A. rewrite <- A. clear A.
  cbn [part_ref qf_dv qf_sv]. set (R0 := vv_write (ld_values (s_ld s)) ++ vv_write (ls_values (s_ls s)) ++ rest).
  assert (EM : m = ld_write (s_ld s) ++ ls_write (s_ls s) ++ R0) by (unfold m, marshal, R0; now rewrite <- !app_assoc).
  destruct (ld_order m 0 x1 b1 ltac:(lia) R1) as (X1 & X2 & _). specialize (X2 ltac:(lia)). destruct (ls_order m b1 x2 b2 X2 R2) as (Y1 & Y2 & _). specialize (Y2 X2).
  pose proof (ld_readR_ok m 0) as Q1. rewrite R1 in Q1. cbn [skipn mapres] in Q1. unfold both in Q1. cbn [fst snd] in Q1. rewrite EM in Q1 at 1. destruct (ld_roundtrip (s_ld s) (ls_write (s_ls s) ++ R0) W1) as (g1 & G1 & _). rewrite G1 in Q1.
  apply OkI in Q1. apply (f_equal snd) in Q1. cbn [snd] in Q1.
  pose proof (ls_readR_ok m b1) as Q2. rewrite R2 in Q2. cbn [mapres] in Q2. unfold both in Q2. cbn [fst snd] in Q2. rewrite <- Q1 in Q2. destruct (ls_roundtrip (s_ls s) R0 W2) as (g2 & G2 & _). rewrite G2 in Q2.
  apply OkI in Q2. apply (f_equal snd) in Q2. cbn [snd] in Q2. symmetry in Q2. apply skip_len in Q2; auto.
  assert (B2 : b2 = marshalNoValueSize s).
  { rewrite Q2, EM, !app_length, ld_write_length, ls_write_length by auto. unfold marshalNoValueSize. lia. }
  clear Q1 Q2. subst b2. destruct (vv_order _ _ _ _ R3 Y2) as (Z1 & Z2 & Z3). destruct (vv_order _ _ _ _ R4 Z3) as (T1 & _). rewrite Z1, T1, Z2. split; auto.
  assert (D : r_len (qv_bytes x3) = length (vv_bytes (ld_values (s_ld s)))).
  { rewrite <- view_m. pose proof (part_bytes m f DensePart) as PB. pose proof (part_len m f U DensePart) as PL. cbn [part_values] in PB. rewrite PB, PL. cbn [part_ref].
    pose proof U as A. unfold unmarshalR in A. rewrite R1 in A. cbn [bind] in A. rewrite R2 in A. cbn [bind] in A. rewrite R3 in A. cbn [bind] in A. rewrite R4 in A. cbn [bind] in A. apply OkI in A. now rewrite <- A. }
  rewrite D. unfold vv_size, vv_rawSize. reflexivity.
Qed.
(** The buffer is what Marshal of the changed filter writes. *)
Lemma store_marshal p off xs : off + length xs <= length (vv_bytes (part_values s p)) ->
  overwrite m (r_off (part_ref f p) + off) xs = marshal (set_bytes s p (overwrite (vv_bytes (part_values s p)) off xs)) ++ rest.
Proof.
  intros H. destruct (built_wf fp vs h r keys vals hint s V B F) as (W1 & W2). destruct places as (P1 & P2).
  pose proof (ld_write_length (s_ld s) W1) as L1. pose proof (ls_write_length (s_ls s) W2) as L2.
  assert (HD : forall v, length (put32 (length (vv_bytes v)) ++ put32 (vv_valueSize v)) = 8) by reflexivity.
  destruct p; cbn [part_values part_ref] in *.
  - set (v := ld_values (s_ld s)) in *. set (a := ld_write (s_ld s) ++ ls_write (s_ls s) ++ put32 (length (vv_bytes v)) ++ put32 (vv_valueSize v)).
    assert (EM : m = a ++ vv_bytes v ++ (padding (vv_rawSize v) ++ vv_write (ls_values (s_ls s)) ++ rest)).
    { unfold m, marshal, a, vv_write. fold v. now rewrite <- !app_assoc. }
    assert (LA : length a = marshalNoValueSize s + 8) by (unfold a; rewrite (app_length (ld_write _)), (app_length (ls_write _)), HD, L1, L2; unfold marshalNoValueSize; lia).
    rewrite P1, <- LA, EM, overwrite_mid by auto. unfold marshal, set_bytes, a, vv_write, vv_rawSize. cbn [s_ld s_ls ld_setValues ld_values vv_bytes vv_valueSize].
    rewrite overwrite_length by auto. fold v. change (ld_write (ld_setValues (s_ld s) _)) with (ld_write (s_ld s)). now rewrite <- !app_assoc.
  - set (v := ls_values (s_ls s)) in *. set (a := ld_write (s_ld s) ++ ls_write (s_ls s) ++ vv_write (ld_values (s_ld s)) ++ put32 (length (vv_bytes v)) ++ put32 (vv_valueSize v)).
    assert (EM : m = a ++ vv_bytes v ++ (padding (vv_rawSize v) ++ rest)).
    { unfold m, marshal, a. unfold vv_write at 2. fold v. now rewrite <- !app_assoc. }
    assert (LA : length a = marshalNoValueSize s + vv_size (ld_values (s_ld s)) + 8).
    { unfold a. rewrite (app_length (ld_write _)), (app_length (ls_write _)), (app_length (vv_write _)), HD, L1, L2, vv_write_length. unfold marshalNoValueSize. lia. }
    rewrite P2, <- LA, EM, overwrite_mid by auto. unfold marshal, set_bytes, a. cbn [s_ld s_ls ls_setValues ls_values].
    unfold vv_write at 3. unfold vv_rawSize. cbn [vv_bytes vv_valueSize]. rewrite overwrite_length by auto. fold v. change (ls_write (ls_setValues (s_ls s) _)) with (ls_write (s_ls s)). now rewrite <- !app_assoc.
Qed.
Lemma store_slice p pos sl j b : value_slice s p pos = Ok sl -> j < sl_len sl ->
  exists m', buf_store m (in_buf f sl) j b = Ok m' /\ sl_write s sl j b = Ok (surf_view m' f) /\ m' = marshal (surf_view m' f) ++ rest.
Proof.
  intros E Hj. pose proof E as E'. rewrite <- view_m in E'. destruct (store_view m f U p pos sl j b E' Hj) as (m' & E1 & E2 & E3). rewrite view_m in E3.
  exists m'. split; auto. split; auto. destruct (slice_fits m f U p pos sl E') as (EP & L & _).
  pose proof (part_bytes m f p) as PB. rewrite view_m in PB. pose proof (part_len m f U p) as PL.
  assert (LL : sl_off sl + j + length [b] <= length (vv_bytes (part_values s p))) by (rewrite PB, PL; cbn [length]; lia).
  pose proof (store_marshal p _ _ LL) as SM. rewrite <- E2 in SM. rewrite SM at 1. do 2 f_equal.
  rewrite E2, (view_part m f U p) by (rewrite <- PL, <- PB; exact LL). now rewrite view_m, PB.
Qed.

(** An assignment to a byte of what Get or Value returned. *)
Theorem get_store q v j b : wf_bytes q = true -> buf_get fp m f q = Ok (Some v) -> j < vs ->
  exists i k x m', nth_error keys i = Some k /\ nth_error vals i = Some x /\ hit_by fp h r (ld_height (s_ld s)) keys k q /\ ref_bytes m v = firstn vs x /\
    buf_store m v j b = Ok m' /\ built fp vs h r keys (set_nth vals i (set_nth x j b)) hint (surf_view m' f) /\ m' = marshal (surf_view m' f) ++ rest.
Proof.
  intros W E Hj. unfold buf_get in E. rewrite view_m in E. apply bindI in E as (o & E & X). apply OkI in X. destruct o as [sl|]; [|discriminate]. cbn [option_map] in X. injection X as <-.
  destruct (get_write fp vs h r keys vals hint s q sl j b V B W E Hj) as (i & k & x & s' & K1 & K2 & K3 & K4 & K5 & K6).
  destruct (slice_find _ _ _ _ _ _ _ _ _ _ V B W E) as (p & pos & E1 & _).
  assert (LS : j < sl_len sl) by (unfold sl_write in K5; destruct (Nat.ltb_spec j (sl_len sl)); [auto|discriminate]).
  destruct (store_slice p pos sl j b E1 LS) as (m' & S1 & S2 & S3). rewrite K5 in S2. apply OkI in S2. subst s'.
  exists i, k, x, m'. split; auto. split; auto. split; auto. split; [|auto].
  rewrite <- K4. rewrite <- view_m at 1. apply (slice_bytes m f U p pos). now rewrite view_m.
Qed.
Theorem value_store it v j b : buf_value m f it = Ok v -> j < vs ->
  exists i x m', i < length keys /\ nth_error vals i = Some x /\ it_value s it = Ok (firstn vs x) /\ ref_bytes m v = firstn vs x /\
    buf_store m v j b = Ok m' /\ built fp vs h r keys (set_nth vals i (set_nth x j b)) hint (surf_view m' f) /\ m' = marshal (surf_view m' f) ++ rest.
Proof.
  intros E Hj. unfold buf_value in E. rewrite view_m in E. apply bindI in E as (sl & E & X). apply OkI in X. subst v.
  destruct (value_write fp vs h r keys vals hint s it sl j b V B E Hj) as (i & x & s' & K1 & K2 & K3 & K4 & K5).
  pose proof E as E'. unfold it_slice in E'. apply bindI in E' as ((p & pos) & _ & E1).
  assert (LS : j < sl_len sl) by (unfold sl_write in K4; destruct (Nat.ltb_spec j (sl_len sl)); [auto|discriminate]).
  destruct (store_slice p pos sl j b E1 LS) as (m' & S1 & S2 & S3). rewrite K4 in S2. apply OkI in S2. subst s'.
  exists i, x, m'. split; auto. split; auto. split; auto. split; [|auto].
  pose proof (value_reads_slice s it) as VR. rewrite E, K3 in VR. cbn [mapres] in VR. apply OkI in VR. rewrite VR. rewrite <- view_m at 1. apply (slice_bytes m f U p pos). now rewrite view_m.
Qed.

(** Appending: the keys, the value itself and all that is before the values stay. *)
Lemma handed_place v : handed fp m f v -> marshalNoValueSize s <= r_off v /\ r_off v + r_len v <= marshalSize s.
Proof.
  intros HV. destruct (handed_slice m f fp v HV) as (p & pos & sl & E & ->). destruct (slice_fits m f U p pos sl E) as (EP & L & _). destruct places as (P1 & P2).
  pose proof (part_bytes m f p) as PB. rewrite view_m in PB. pose proof (part_len m f U p) as PL. rewrite <- PB in PL.
  pose proof (align_bound (vv_rawSize (ld_values (s_ld s)))) as A1. pose proof (align_bound (vv_rawSize (ls_values (s_ls s)))) as A2.
  unfold marshalSize, marshalNoValueSize, in_buf, vv_size, vv_rawSize in *. cbn [r_off r_len]. rewrite EP. destruct p; cbn [part_values] in PL; lia.
Qed.
Theorem append_any v xs : handed fp m f v ->
  exists vals', valid_input vs h r keys vals' /\ built fp vs h r keys vals' hint (surf_view (buf_append m v xs) f) /\
    ref_bytes (buf_append m v xs) v = ref_bytes m v /\ firstn (marshalNoValueSize s) (buf_append m v xs) = firstn (marshalNoValueSize s) m.
Proof.
  intros HV. destruct (append_view m f U fp vs h r keys vals hint v xs V ltac:(rewrite view_m; exact B) HV) as (vals' & A1 & A2 & A3). exists vals'. split; auto. split; auto. split; auto.
  unfold buf_append. destruct (Nat.leb_spec (r_len v + length xs) (length m - r_off v)); auto. destruct (handed_place v HV) as (H1 & H2).
  destruct (built_wf fp vs h r keys vals hint s V B F) as (W1 & W2). assert (LM : marshalSize s <= length m) by (unfold m; rewrite app_length, marshal_length by auto; lia).
  apply overwrite_before; lia.
Qed.
(** ... but the bytes behind the filter do not. *)
Theorem append_beyond v : rest <> [] -> handed fp m f v -> exists xs, length (buf_append m v xs) = length m /\ skipn (marshalSize s) (buf_append m v xs) <> rest.
Proof.
  intros NE HV. destruct (handed_place v HV) as (H1 & H2). destruct (built_wf fp vs h r keys vals hint s V B F) as (W1 & W2).
  assert (LM : length m = marshalSize s + length rest) by (unfold m; rewrite app_length, marshal_length by auto; lia).
  set (g := fun b : nat => if Nat.eqb b 0 then 1 else 0). exists (map g (skipn (r_off v + r_len v) m)). unfold buf_append. rewrite map_length, skipn_length.
  rewrite (proj2 (Nat.leb_le _ _)) by lia. assert (FIT : r_off v + r_len v + length (map g (skipn (r_off v + r_len v) m)) <= length m) by (rewrite map_length, skipn_length; lia).
  split; [now apply overwrite_length|]. intros EQ. destruct rest as [|x rst] eqn:ER; [congruence|].
  apply (f_equal (fun l => nth_error l 0)) in EQ. rewrite nth_skipn', Nat.add_0_r in EQ. rewrite nth_error_overwrite in EQ by auto. cbn [nth_error] in EQ. rewrite map_length, skipn_length in EQ. cbn [length] in LM.
  rewrite (proj2 (Nat.leb_le _ _)) in EQ by lia. rewrite (proj2 (Nat.ltb_lt _ _)) in EQ by lia. cbn [andb] in EQ.
  rewrite nth_error_map, nth_skipn' in EQ. replace (r_off v + r_len v + (marshalSize s - (r_off v + r_len v))) with (marshalSize s) in EQ by lia.
  unfold m in EQ. rewrite nth_error_app2 in EQ by (rewrite marshal_length; auto). rewrite marshal_length, Nat.sub_diag in EQ by auto. cbn in EQ. unfold g in EQ. destruct (Nat.eqb_spec x 0); injection EQ as EQ; lia.
Qed.
End Marshalled.
