(** * Serialization round trip. *)
From Verif Require Import Base BitsModel BitsFacts VecModel VecProofs VecProofs2 SurfModel SurfTrie SurfSuffix SurfBuild SurfDense SurfEnc SurfSpec SurfBuildTop SurfGet SurfTop SurfMarshal ArtNodeProofs.

(* ------------------------------------------------------------------ *)
(** ** Sizes and padding *)

Lemma align_mul8 n : exists q, align n = 8 * q.
Proof. exists ((n + 7) / 8). unfold align. lia. Qed.
Lemma align_bound n : n <= align n < n + 8.
Proof. unfold align. pose proof (Nat.div_mod (n + 7) 8). pose proof (Nat.mod_upper_bound (n + 7) 8). lia. Qed.
Lemma align_id n q : n = 8 * q -> align n = n.
Proof. intros ->. unfold align. replace (8 * q + 7) with (7 + q * 8) by lia. rewrite Nat.div_add by lia. rewrite (Nat.div_small 7 8) by lia. lia. Qed.
Lemma align_align n : align (align n) = align n.
Proof. destruct (align_mul8 n) as (q & E). rewrite E at 1. rewrite E. apply (align_id _ q); auto. Qed.
Lemma pad_sum n x : x = n -> x + (align n - n) = align n.
Proof. intros ->. pose proof (align_bound n). lia. Qed.
Lemma padding_length n : length (padding n) = align n - n.
Proof. apply repeat_length. Qed.
Lemma put32_length n : length (put32 n) = 4.
Proof. reflexivity. Qed.

Lemma put_le_length n : forall w, length (put_le n w) = n.
Proof. induction n; intros w; cbn [put_le length]; auto. Qed.
Lemma get_put_le n : forall w, (w < 256 ^ N.of_nat n)%N -> get_le (put_le n w) = w.
Proof.
  induction n as [|n IH]; intros w H; cbn [put_le get_le].
  - cbn in H. lia.
  - rewrite N2Nat.id. rewrite IH.
    + pose proof (N.div_mod w 256). lia.
    + apply N.div_lt_upper_bound; [discriminate|]. replace (N.of_nat (S n)) with (N.succ (N.of_nat n)) in H by lia. rewrite N.pow_succ_r' in H. exact H.
Qed.

Lemma u64_length ws : length (u64SliceToBytes ws) = length ws * 8.
Proof. induction ws as [|w ws IH]; [reflexivity|]. cbn [u64SliceToBytes flat_map]. rewrite app_length, put_le_length. unfold u64SliceToBytes in IH. rewrite IH. cbn [length]. lia. Qed.
Lemma u32_length l : length (u32SliceToBytes l) = length l * 4.
Proof. induction l as [|w l IH]; [reflexivity|]. cbn [u32SliceToBytes flat_map]. rewrite app_length. unfold u32SliceToBytes in IH. rewrite IH. cbn [length put32]. lia. Qed.

Lemma chunks_flat {A B} (f : bytes -> A) (g : B -> bytes) (h : B -> A) size l : (forall x, In x l -> length (g x) = size /\ f (g x) = h x) ->
  chunks (length l) f size (flat_map g l) = map h l.
Proof.
  induction l as [|x l IH]; intros H; [reflexivity|]. cbn [length chunks flat_map map].
  destruct (H x (or_introl eq_refl)) as [L E]. rewrite firstn_app, L, Nat.sub_diag. rewrite firstn_all2 by lia. cbn [firstn]. rewrite app_nil_r, E.
  f_equal. rewrite skipn_app, L, Nat.sub_diag. rewrite skipn_all2 by lia. cbn [app skipn]. apply IH. intros y Hy. apply H. now right.
Qed.

Lemma u64_roundtrip ws : words_ok ws -> bytesToU64Slice (u64SliceToBytes ws) = ws.
Proof.
  intros W. unfold bytesToU64Slice. rewrite u64_length, Nat.div_mul by lia. unfold u64SliceToBytes.
  rewrite (chunks_flat get_le (put_le 8) (fun w => w)); [apply map_id|]. intros x Hx. split; [apply put_le_length|].
  apply get_put_le. unfold words_ok in W. rewrite Forall_forall in W. apply (W x Hx).
Qed.
Lemma u32_roundtrip l : Forall fits32 l -> bytesToU32Slice (u32SliceToBytes l) = l.
Proof.
  intros W. unfold bytesToU32Slice. rewrite u32_length, Nat.div_mul by lia. unfold u32SliceToBytes.
  rewrite (chunks_flat le4 put32 (fun w => w)); [apply map_id|]. intros x Hx. split; [reflexivity|].
  unfold le4. rewrite Forall_forall in W. rewrite <- (app_nil_r (put32 x)), get32_put32; auto.
Qed.

(** Slices of a buffer given as consecutive pieces. *)
Lemma from_piece {A} (a b : list A) n : length a = n -> slice_from (a ++ b) n = Ok b.
Proof. intros <-. now apply slice_from_app. Qed.
Lemma mid_piece {A} (a b c : list A) i j : length a = i -> i + length b = j -> slice (a ++ b ++ c) i j = Ok b.
Proof. intros <- <-. now apply slice_app_mid. Qed.

Ltac len := repeat rewrite ?app_length, ?put32_length, ?u64_length, ?u32_length, ?padding_length, ?repeat_length; cbn [length].

(* ------------------------------------------------------------------ *)
(** ** The vectors *)

Definition bv_wf (v : bitVector) : Prop := length (bv_bits v) = numWords (bv_numBits v) /\ words_ok (bv_bits v) /\ fits32 (bv_numBits v).
Definition rv_wf (v : rankVector) : Prop := bv_wf (rv_bv v) /\ 0 < rv_blockSize v /\ fits32 (rv_blockSize v) /\
  length (rv_lut v) = bv_numBits (rv_bv v) / rv_blockSize v + 1 /\ Forall fits32 (rv_lut v).
Definition sv_wf (v : selectVector) : Prop := bv_wf (sv_bv v) /\ fits32 (sv_numOnes v) /\
  length (sv_lut v) = sv_numOnes v / 64 + 1 /\ Forall fits32 (sv_lut v).
Definition vv_wf (v : valueVector) : Prop := fits32 (length (vv_bytes v)) /\ fits32 (vv_valueSize v).
Definition pv_wf (v : prefixVec) : Prop := rv_wf (pv_has v) /\ fits32 (length (pv_offsets v)) /\ fits32 (length (pv_data v)).
Definition xv_wf (v : suffixVector) : Prop := bv_wf (xv_bv v) /\ fits32 (xv_hashLen v) /\ fits32 (xv_realLen v) /\
  (xv_type v = NoneSuffix -> xv_bv v = mkBV 0 []).

Lemma bits_size v : bv_wf v -> length (u64SliceToBytes (bv_bits v)) = bitsSize v.
Proof. intros (L & _). unfold bitsSize. rewrite u64_length, L. reflexivity. Qed.

Lemma vv_write_length v : length (vv_write v) = vv_size v.
Proof. unfold vv_write, vv_size, vv_rawSize. len. pose proof (align_bound (8 + length (vv_bytes v))). lia. Qed.
Lemma vv_roundtrip v rest : vv_wf v -> vv_read (vv_write v ++ rest) = Ok (v, rest).
Proof.
  intros (W1 & W2). unfold vv_read, vv_write. rewrite <- !app_assoc. rewrite get32_put32 by auto. cbn [bind].
  rewrite from_piece by reflexivity. cbn [bind]. rewrite get32_put32 by auto. cbn [bind].
  rewrite (app_assoc (put32 _) (put32 _)). rewrite mid_piece by (len; lia). cbn [bind].
  rewrite !app_assoc. rewrite from_piece; [cbn [bind]; now destruct v|].
  len. unfold vv_rawSize. pose proof (align_bound (8 + length (vv_bytes v))). lia.
Qed.

Lemma sv_write_length v : sv_wf v -> length (sv_write v) = sv_size v.
Proof.
  intros (B & W1 & W2 & W3). unfold sv_write, sv_size. rewrite !app_length, (bits_size _ B), u32_length, padding_length, !put32_length, W2.
  pose proof (align_bound (sv_rawSize v)). unfold sv_rawSize, sv_lutSize in *. lia.
Qed.
Lemma sv_roundtrip v rest : sv_wf v -> sv_read (sv_write v ++ rest) = Ok (v, rest).
Proof.
  intros (B & W1 & W2 & W3). pose proof B as (B1 & B2 & B3). pose proof (bits_size _ B) as BS. unfold sv_read, sv_write. rewrite <- !app_assoc. rewrite get32_put32 by auto. cbn [bind].
  rewrite from_piece by reflexivity. cbn [bind]. rewrite get32_put32 by auto. cbn [bind]. cbv zeta.
  fold (bitsSize (sv_bv v)). rewrite (app_assoc (put32 _) (put32 _)). rewrite mid_piece by (len; rewrite <- ?BS; len; lia). cbn [bind].
  rewrite (app_assoc (put32 _ ++ put32 _) (u64SliceToBytes _)). rewrite mid_piece by (rewrite ?app_length, ?BS, ?u32_length, ?W2; len; lia). cbn [bind].
  rewrite !app_assoc. rewrite from_piece.
  - cbn [bind]. rewrite u64_roundtrip, u32_roundtrip by auto. destruct v as [[nb ws] no lut]. reflexivity.
  - rewrite !app_length, BS, u32_length, padding_length, !put32_length, W2.
    match goal with |- _ = align ?e => change (align e) with (align (sv_rawSize v)) end. pose proof (align_bound (sv_rawSize v)) as AB. set (a := align (sv_rawSize v)) in *. clearbody a. unfold sv_rawSize, sv_lutSize in *. lia.
Qed.

Lemma rv_write_length v : rv_wf v -> length (rv_write v) = rv_size v.
Proof.
  intros (B & _ & W1 & W2 & W3). unfold rv_write, rv_size. rewrite !app_length, (bits_size _ B), u32_length, padding_length, !put32_length, W2.
  pose proof (align_bound (rv_rawSize v)). unfold rv_rawSize, rv_lutSize in *. lia.
Qed.
Lemma rv_roundtrip v rest : rv_wf v -> rv_read (rv_write v ++ rest) = Ok (v, rest).
Proof.
  intros (B & W0 & W1 & W2 & W3). pose proof B as (B1 & B2 & B3). pose proof (bits_size _ B) as BS. unfold rv_read, rv_write. rewrite <- !app_assoc. rewrite get32_put32 by auto. cbn [bind].
  rewrite from_piece by reflexivity. cbn [bind]. rewrite get32_put32 by auto. cbn [bind]. cbv zeta.
  fold (bitsSize (rv_bv v)). rewrite (app_assoc (put32 _) (put32 _)). rewrite mid_piece by (len; rewrite <- ?BS; len; lia). cbn [bind].
  destruct (Nat.eqb_spec (rv_blockSize v) 0) as [Z|_]; [lia|].
  rewrite (app_assoc (put32 _ ++ put32 _) (u64SliceToBytes _)). rewrite mid_piece by (rewrite ?app_length, ?BS, ?u32_length, ?W2; len; lia). cbn [bind].
  rewrite !app_assoc. rewrite from_piece.
  - cbn [bind]. rewrite u64_roundtrip, u32_roundtrip by auto. destruct v as [[nb ws] no lut]. reflexivity.
  - rewrite !app_length, BS, u32_length, padding_length, !put32_length, W2.
    match goal with |- _ = align ?e => change (align e) with (align (rv_rawSize v)) end. pose proof (align_bound (rv_rawSize v)) as AB. set (a := align (rv_rawSize v)) in *. clearbody a. unfold rv_rawSize, rv_lutSize in *. lia.
Qed.

Lemma lab_write_length l : length (lab_write l) = lab_size l.
Proof. unfold lab_write, lab_size. len. pose proof (align_bound (lab_rawSize l)). unfold lab_rawSize in *. lia. Qed.
Lemma lab_roundtrip l rest : fits32 (length l) -> lab_read (lab_write l ++ rest) = Ok (l, rest).
Proof.
  intros W. unfold lab_read, lab_write. rewrite <- !app_assoc. rewrite get32_put32 by auto. cbn [bind].
  rewrite mid_piece by reflexivity. cbn [bind]. rewrite !app_assoc. rewrite from_piece; [reflexivity|].
  len. pose proof (align_bound (lab_rawSize l)). unfold lab_rawSize in *. lia.
Qed.

Lemma pv_write_length v : pv_wf v -> length (pv_write v) = pv_size v.
Proof.
  intros (R & W1 & W2). unfold pv_write, pv_size. rewrite !app_length, (rv_write_length _ R), padding_length, !put32_length.
  pose proof (align_bound (pv_rawSize v)). unfold pv_rawSize in *. lia.
Qed.
Lemma pv_roundtrip v rest : pv_wf v -> pv_read (pv_write v ++ rest) = Ok (v, rest).
Proof.
  intros (R & W1 & W2). pose proof (rv_write_length _ R) as RL. pose proof (pv_write_length v (conj R (conj W1 W2))) as PL. unfold pv_read.
  unfold pv_write at 1. rewrite <- !app_assoc. rewrite rv_roundtrip by auto. cbn [bind]. rewrite get32_put32 by auto. cbn [bind].
  rewrite from_piece by reflexivity. cbn [bind]. rewrite get32_put32 by auto. cbn [bind].
  rewrite (app_assoc (put32 _) (put32 _)). rewrite mid_piece by (len; lia). cbn [bind].
  rewrite (app_assoc (put32 _ ++ put32 _) (pv_offsets v)). rewrite mid_piece by (len; lia). cbn [bind]. cbv zeta.
  replace (mkPV (pv_has v) (pv_offsets v) (pv_data v)) with v by now destruct v.
  rewrite from_piece by exact PL. reflexivity.
Qed.

Lemma xv_write_length v : xv_wf v -> length (xv_write v) = xv_size v.
Proof.
  intros (B & W1 & W2 & W3). unfold xv_write, xv_size. rewrite !app_length, (bits_size _ B), padding_length, !put32_length. cbn [length].
  pose proof (align_bound (xv_rawSize v)). unfold xv_rawSize in *. lia.
Qed.
Lemma byte_type_byte t : byte_type (type_byte t) = Ok t.
Proof. now destruct t. Qed.
Lemma xv_roundtrip v rest : xv_wf v -> xv_read (xv_write v ++ rest) = Ok (v, rest).
Proof.
  intros (B & W1 & W2 & W3). pose proof B as (B1 & B2 & B3). pose proof (bits_size _ B) as BS. unfold xv_read, xv_write. rewrite <- !app_assoc. rewrite get32_put32 by auto. cbn [bind].
  replace (idx _ 4) with (Ok (type_byte (xv_type v))) by reflexivity. cbn [bind]. rewrite byte_type_byte. cbn [bind].
  rewrite (app_assoc (put32 _) [_]). rewrite from_piece by reflexivity. cbn [bind]. rewrite get32_put32 by auto. cbn [bind].
  rewrite (app_assoc (put32 _ ++ [_]) (put32 _)). rewrite from_piece by reflexivity. cbn [bind]. rewrite get32_put32 by auto. cbn [bind].
  rewrite (app_assoc ((put32 _ ++ [_]) ++ put32 _) (put32 _)).
  fold (bitsSize (xv_bv v)).
  assert (PL : forall x, 13 + x = xv_rawSize v -> length ((((put32 (bv_numBits (xv_bv v)) ++ [type_byte (xv_type v)]) ++ put32 (xv_hashLen v)) ++ put32 (xv_realLen v)) ++ u64SliceToBytes (bv_bits (xv_bv v)) ++ padding (xv_rawSize v)) = align (13 + x)).
  { intros x Hx. rewrite !app_length, BS, padding_length, !put32_length. cbn [length]. rewrite Hx. pose proof (align_bound (xv_rawSize v)). unfold xv_rawSize in *. lia. }
  destruct (suffixType_eqb (xv_type v) NoneSuffix) eqn:E.
  - cbn [bind]. assert (T : xv_type v = NoneSuffix) by (destruct (xv_type v); try discriminate; reflexivity).
    pose proof (W3 T) as Z. rewrite !app_assoc. rewrite from_piece.
    + cbn [bind]. destruct v as [bv t hl rl]. cbn in *. subst. reflexivity.
    + rewrite <- (app_assoc _ (u64SliceToBytes _)). rewrite (PL 0); [reflexivity|]. unfold xv_rawSize, bitsSize. rewrite Z. reflexivity.
  - rewrite mid_piece by (rewrite ?BS; reflexivity). cbn [bind]. rewrite !app_assoc. rewrite from_piece.
    + cbn [bind]. rewrite u64_roundtrip by auto. destruct v as [[nb ws] t hl rl]. reflexivity.
    + rewrite <- (app_assoc _ (u64SliceToBytes _)). apply PL. unfold xv_rawSize. lia.
Qed.

(* ------------------------------------------------------------------ *)
(** ** The filter *)

Record ld_wf (ld : loudsDense) : Prop := {
  lw_h : fits32 (ld_height ld); lw_label : rv_wf (ld_label ld); lw_has : rv_wf (ld_hasChild ld); lw_isp : rv_wf (ld_isPrefix ld);
  lw_suf : xv_wf (ld_suffixes ld); lw_pre : pv_wf (ld_prefix ld); lw_val : vv_wf (ld_values ld) }.
Record ls_wf (ls : loudsSparse) : Prop := {
  sw_h : fits32 (ls_height ls); sw_start : fits32 (ls_startLevel ls); sw_dn : fits32 (ls_denseNodeCount ls); sw_dc : fits32 (ls_denseChildCount ls);
  sw_label : fits32 (length (ls_label ls)); sw_has : rv_wf (ls_hasChild ls); sw_louds : sv_wf (ls_louds ls);
  sw_suf : xv_wf (ls_suffixes ls); sw_pre : pv_wf (ls_prefix ls); sw_val : vv_wf (ls_values ls) }.

Lemma ld_write_length ld : ld_wf ld -> length (ld_write ld) = ld_size ld.
Proof.
  intros W. unfold ld_write, ld_size. rewrite !app_length, !rv_write_length, xv_write_length, pv_write_length, padding_length, put32_length by apply W.
  pose proof (align_bound (ld_rawSize ld)). unfold ld_rawSize in *. lia.
Qed.
Lemma ls_write_length ls : ls_wf ls -> length (ls_write ls) = ls_size ls.
Proof.
  intros W. unfold ls_write, ls_size. rewrite !app_length, lab_write_length, rv_write_length, sv_write_length, xv_write_length, pv_write_length, padding_length, !put32_length by apply W.
  pose proof (align_bound (ls_rawSize ls)). unfold ls_rawSize in *. lia.
Qed.

Lemma rest_size {A} (w p rest : list A) n : length w = n -> length p = align n - n -> 
  slice_from (w ++ p ++ rest) (align (length (w ++ p ++ rest) - length (p ++ rest))) = Ok rest.
Proof.
  intros H1 H2. rewrite (app_length w). replace (length w + length (p ++ rest) - length (p ++ rest)) with n by lia.
  rewrite app_assoc. apply from_piece. rewrite app_length. pose proof (align_bound n). lia.
Qed.

Lemma ld_roundtrip ld rest : ld_wf ld -> exists f, ld_read (ld_write ld ++ rest) = Ok (f, rest) /\ f (ld_values ld) = ld.
Proof.
  intros W. unfold ld_read. remember (ld_write ld ++ rest) as buf. pose proof Heqbuf as EB.
  unfold ld_write in EB. rewrite <- !app_assoc in EB. 
  assert (G : get32 buf = Ok (ld_height ld)) by (rewrite EB; apply get32_put32, W). rewrite G. cbn [bind]. clear G.
  match type of EB with buf = _ ++ ?b => assert (G : slice_from buf 4 = Ok b) by (rewrite EB; apply from_piece; reflexivity) end. rewrite G. cbn [bind]. clear G.
  rewrite rv_roundtrip by apply W. cbn [bind]. rewrite rv_roundtrip by apply W. cbn [bind]. rewrite rv_roundtrip by apply W. cbn [bind].
  rewrite xv_roundtrip by apply W. cbn [bind]. rewrite pv_roundtrip by apply W. cbn [bind].
  exists (fun values => mkLD (ld_label ld) (ld_hasChild ld) (ld_isPrefix ld) (ld_suffixes ld) values (ld_prefix ld) (ld_height ld)).
  split; [|now destruct ld].
  rewrite EB. rewrite !app_assoc. rewrite <- (app_assoc _ (padding _) rest).
  rewrite (rest_size _ (padding (ld_rawSize ld)) rest (ld_rawSize ld)).
  - reflexivity.
  - rewrite !app_length, !rv_write_length, xv_write_length, pv_write_length, put32_length by apply W. unfold ld_rawSize. lia.
  - apply padding_length.
Qed.
Lemma ls_roundtrip ls rest : ls_wf ls -> exists f, ls_read (ls_write ls ++ rest) = Ok (f, rest) /\ f (ls_values ls) = ls.
Proof.
  intros W. unfold ls_read. remember (ls_write ls ++ rest) as buf. pose proof Heqbuf as EB.
  unfold ls_write in EB. rewrite <- !app_assoc in EB. 
  assert (G : get32 buf = Ok (ls_height ls)) by (rewrite EB; apply get32_put32, W). rewrite G. cbn [bind]. clear G.
  match type of EB with buf = _ ++ ?b => assert (G : slice_from buf 4 = Ok b) by (rewrite EB; apply from_piece; reflexivity) end. rewrite G. cbn [bind]. clear G. rewrite get32_put32 by apply W. cbn [bind].
  rewrite from_piece by reflexivity. cbn [bind]. rewrite get32_put32 by apply W. cbn [bind].
  rewrite from_piece by reflexivity. cbn [bind]. rewrite get32_put32 by apply W. cbn [bind].
  rewrite from_piece by reflexivity. cbn [bind].
  rewrite lab_roundtrip by apply W. cbn [bind]. rewrite rv_roundtrip by apply W. cbn [bind]. rewrite sv_roundtrip by apply W. cbn [bind].
  rewrite xv_roundtrip by apply W. cbn [bind]. rewrite pv_roundtrip by apply W. cbn [bind].
  exists (fun values => mkLS (ls_height ls) (ls_startLevel ls) (ls_denseNodeCount ls) (ls_denseChildCount ls) (ls_label ls) (ls_hasChild ls) (ls_louds ls) (ls_suffixes ls) values (ls_prefix ls)).
  split; [|now destruct ls].
  rewrite EB. rewrite !app_assoc. rewrite <- (app_assoc _ (padding _) rest).
  rewrite (rest_size _ (padding (ls_rawSize ls)) rest (ls_rawSize ls)).
  - reflexivity.
  - rewrite !app_length, lab_write_length, rv_write_length, sv_write_length, xv_write_length, pv_write_length, !put32_length by apply W. unfold ls_rawSize. lia.
  - apply padding_length.
Qed.

Lemma unmarshal_marshal s rest : ld_wf (s_ld s) -> ls_wf (s_ls s) -> unmarshal (marshal s ++ rest) = Ok s.
Proof.
  intros W1 W2. unfold unmarshal, marshal. rewrite <- !app_assoc.
  destruct (ld_roundtrip (s_ld s) (ls_write (s_ls s) ++ vv_write (ld_values (s_ld s)) ++ vv_write (ls_values (s_ls s)) ++ rest) W1) as (f & E1 & F1). rewrite E1. cbn [bind].
  destruct (ls_roundtrip (s_ls s) (vv_write (ld_values (s_ld s)) ++ vv_write (ls_values (s_ls s)) ++ rest) W2) as (g & E2 & F2). rewrite E2. cbn [bind].
  rewrite vv_roundtrip by apply W1. cbn [bind]. rewrite vv_roundtrip by apply W2. cbn [bind]. rewrite F1, F2. now destruct s.
Qed.

Lemma marshal_length s : ld_wf (s_ld s) -> ls_wf (s_ls s) -> length (marshal s) = marshalSize s.
Proof. intros W1 W2. unfold marshal, marshalSize. rewrite !app_length, ld_write_length, ls_write_length, !vv_write_length by auto. lia. Qed.
Lemma marshalSize_mul8 s : marshalSize s mod 8 = 0.
Proof.
  unfold marshalSize, ld_size, ls_size, vv_size.
  destruct (align_mul8 (ld_rawSize (s_ld s))) as (a & ->). destruct (align_mul8 (ls_rawSize (s_ls s))) as (b & ->).
  destruct (align_mul8 (vv_rawSize (ld_values (s_ld s)))) as (e & ->). destruct (align_mul8 (vv_rawSize (ls_values (s_ls s)))) as (f & ->).
  replace (8 * a + 8 * b + 8 * e + 8 * f) with ((a + b + e + f) * 8) by lia. apply Nat.mod_mul. lia.
Qed.

(* ------------------------------------------------------------------ *)
(** ** Built filters are serializable *)

(** Every count and length of the filter fits the uint32 the code keeps it in. *)
Record fields_fit (s : surf) : Prop := {
  ff_dense : Forall fits32 [ld_height (s_ld s); bv_numBits (rv_bv (ld_label (s_ld s))); bv_numBits (rv_bv (ld_hasChild (s_ld s)));
    bv_numBits (rv_bv (ld_isPrefix (s_ld s))); bv_numBits (xv_bv (ld_suffixes (s_ld s)));
    bv_numBits (rv_bv (pv_has (ld_prefix (s_ld s)))); length (pv_offsets (ld_prefix (s_ld s))); length (pv_data (ld_prefix (s_ld s)));
    length (vv_bytes (ld_values (s_ld s))); vv_valueSize (ld_values (s_ld s))];
  ff_sparse : Forall fits32 [ls_height (s_ls s); ls_startLevel (s_ls s); ls_denseNodeCount (s_ls s); ls_denseChildCount (s_ls s);
    length (ls_label (s_ls s)); bv_numBits (rv_bv (ls_hasChild (s_ls s))); bv_numBits (sv_bv (ls_louds (s_ls s)));
    bv_numBits (xv_bv (ls_suffixes (s_ls s)));
    bv_numBits (rv_bv (pv_has (ls_prefix (s_ls s)))); length (pv_offsets (ls_prefix (s_ls s))); length (pv_data (ls_prefix (s_ls s)));
    length (vv_bytes (ls_values (s_ls s))); vv_valueSize (ls_values (s_ls s))]
}.

Lemma bv_rep_wf v B : bv_rep v B -> fits32 (bv_numBits v) -> bv_wf v.
Proof. intros (H1 & H2 & H3 & _) F. split; [now rewrite H1|]. auto. Qed.
Lemma cnt_le f n : cnt f n <= n.
Proof. induction n; cbn [cnt]; [lia|]. destruct (f n); lia. Qed.
Lemma cntl_len B n : cntl B n <= length B.
Proof.
  destruct (Nat.le_gt_cases n (length B)) as [H|H].
  - pose proof (cnt_le (fun i => nth i B false) n). unfold cntl. lia.
  - rewrite cntl_all by lia. apply cnt_le.
Qed.
Lemma rv_rep_wf bsz v B : rv_rep bsz v B -> 0 < bsz -> fits32 bsz -> fits32 (bv_numBits (rv_bv v)) -> rv_wf v.
Proof.
  intros (H1 & H2 & H3) Z F1 F2. split; [now apply (bv_rep_wf _ B)|]. rewrite H2. split; auto. split; auto. rewrite H3, map_length, seq_length. split; [now rewrite (proj1 H1)|].
  rewrite Forall_map, Forall_forall. intros j _. apply (fits32_le _ (length B)); [apply cntl_len|]. now rewrite <- (proj1 H1).
Qed.
Lemma sv_rep_wf v B : sv_rep v B -> fits32 (bv_numBits (sv_bv v)) -> sv_wf v.
Proof.
  intros (H1 & H2 & H3 & H4 & H5) F. pose proof F as F'. rewrite (proj1 H1) in F'. split; [now apply (bv_rep_wf _ B)|]. rewrite H2. split; [apply (fits32_le _ (length B)); auto; apply cntl_len|]. split; auto.
  rewrite Forall_forall. intros p Hp. apply In_nth_error in Hp. destruct Hp as (j & E). destruct j as [|j].
  - rewrite H4 in E. injection E as <-. unfold fits32. cbn. lia.
  - destruct (H5 (S j) p) as (L & _); [lia|exact E|]. apply (fits32_le _ (length B)); auto. lia.
Qed.
Lemma pv_rep_wf v P : pv_rep v P -> fits32 (bv_numBits (rv_bv (pv_has v))) -> fits32 (length (pv_offsets v)) -> fits32 (length (pv_data v)) -> pv_wf v.
Proof.
  intros ((pad & R) & _) F1 F2 F3. split; auto. apply (rv_rep_wf _ _ _ R); auto; unfold fits32, rankSparseBlockSize; lia.
Qed.
Lemma sx_rep_wf fp c v its : sx_rep fp c v its -> c_hashLen c + c_realLen c <= 64 -> fits32 (bv_numBits (xv_bv v)) -> xv_wf v.
Proof.
  intros ((T & Z) & X) L F. destruct (suffixType_eqb (c_type c) NoneSuffix) eqn:E.
  - rewrite Z by (destruct (c_type c); try discriminate; reflexivity). split; [|split; [|split]]; cbn; auto; try (unfold fits32; lia).
    split; [reflexivity|]. split; [constructor|unfold fits32; cbn; lia].
  - destruct X as (X1 & X2 & X3); [intros Q; rewrite Q in E; discriminate|]. split; [now apply (bv_rep_wf _ _ X3)|]. rewrite X1, X2.
    split; [unfold fits32; lia|]. split; [unfold fits32; lia|]. intros Q. rewrite T in Q. rewrite Q in E. discriminate.
Qed.

Lemma surf_wf fp c NSS h s : c_hashLen c + c_realLen c <= 64 -> surf_rep fp c NSS h s -> fields_fit s -> ld_wf (s_ld s) /\ ls_wf (s_ls s).
Proof.
  intros L (_ & _ & _ & _ & D & S) [FD FS].
  repeat match goal with H : Forall _ (_ :: _) |- _ => apply Forall_cons_iff in H; destruct H end.
  assert (BD : 0 < rankDenseBlockSize /\ fits32 rankDenseBlockSize) by (unfold fits32, rankDenseBlockSize; lia).
  assert (BS : 0 < rankSparseBlockSize /\ fits32 rankSparseBlockSize) by (unfold fits32, rankSparseBlockSize; lia).
  split; constructor; auto.
  - apply (rv_rep_wf _ _ _ (ldr_label _ _ _ _ _ D)); tauto.
  - apply (rv_rep_wf _ _ _ (ldr_hasc _ _ _ _ _ D)); tauto.
  - destruct (ldr_isp _ _ _ _ _ D) as (pad & R). apply (rv_rep_wf _ _ _ R); tauto.
  - apply (sx_rep_wf _ _ _ _ (ldr_suf _ _ _ _ _ D)); auto.
  - apply (pv_rep_wf _ _ (ldr_pre _ _ _ _ _ D)); auto.
  - split; auto.
  - apply (rv_rep_wf _ _ _ (lsr_hasc _ _ _ _ _ _ _ S)); tauto.
  - apply (sv_rep_wf _ _ (lsr_louds _ _ _ _ _ _ _ S)); auto.
  - apply (sx_rep_wf _ _ _ _ (lsr_suf _ _ _ _ _ _ _ S)); auto.
  - apply (pv_rep_wf _ _ (lsr_pre _ _ _ _ _ _ _ S)); auto.
  - split; auto.
Qed.

Theorem built_roundtrip fp vs h r keys vals hint s : valid_input vs h r keys vals -> built fp vs h r keys vals hint s -> fields_fit s ->
  forall rest, unmarshal (marshal s ++ rest) = Ok s.
Proof.
  intros V B F rest. destruct (built_rep _ _ _ _ _ _ _ _ V B) as (cut & R & _).
  destruct (surf_wf _ (mkcfg vs h r) _ _ _ (v_suffix _ _ _ _ _ V) R F). now apply unmarshal_marshal.
Qed.
Theorem built_sizes fp vs h r keys vals hint s : valid_input vs h r keys vals -> built fp vs h r keys vals hint s -> fields_fit s ->
  length (marshal s) = marshalSize s /\ marshalSize s mod 8 = 0 /\
  vv_read (skipn (marshalNoValueSize s) (marshal s)) = Ok (ld_values (s_ld s), vv_write (ls_values (s_ls s))) /\
  marshalNoValueSize s <= marshalSize s.
Proof.
  intros V B F. destruct (built_rep _ _ _ _ _ _ _ _ V B) as (cut & R & _).
  destruct (surf_wf _ (mkcfg vs h r) _ _ _ (v_suffix _ _ _ _ _ V) R F) as [W1 W2]. split; [now apply marshal_length|]. split; [apply marshalSize_mul8|].
  split; [|unfold marshalNoValueSize, marshalSize; lia].
  unfold marshal, marshalNoValueSize. rewrite app_assoc, skipn_app, skipn_all2 by (rewrite app_length, ld_write_length, ls_write_length by auto; lia).
  replace (_ - _) with 0 by (rewrite app_length, ld_write_length, ls_write_length by auto; lia). cbn [skipn app]. apply vv_roundtrip, W1.
Qed.
