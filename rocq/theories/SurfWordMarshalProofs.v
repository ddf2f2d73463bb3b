(** * SurfWordMarshalProofs: within the limits no 32-bit size wraps in Marshal and Unmarshal. *)
From Verif Require Import Base BitsModel BitsFacts VecModel SurfModel SurfMarshal SurfWord VecProofs VecProofs2 SurfTrie SurfBuild SurfDense SurfEnc SurfBuildTop SurfSpec SurfTop SurfSize SurfGet
  SurfMarshalProofs SurfWordProofs SurfWordBuild SurfWordBuild2 SurfWordSpec SurfWordTop SurfWordBig SurfWordMarshal.

(* ------------------------------------------------------------------ *)
(** ** Sizes *)
Lemma numWords_le n : numWords n <= n / 64 + 1.
Proof. unfold numWords. destruct (Nat.eqb _ _); lia. Qed.
Lemma fits_div n k : fits32 n -> 64 <= k -> fits32 ((n / k + 1) * 8).
Proof.
  intros F K. assert (n / k <= n / 64) by (apply Nat.div_le_compat_l; lia). pose proof (Nat.div_mod n 64 ltac:(lia)). generalize dependent (n / k). generalize dependent (n / 64). intros a Ha b Hb. fit.
Qed.
Lemma bits32 nb : fits32 nb -> bitsSize32 nb = numWords nb * 8.
Proof. intros F. apply mul32_small. eapply fits_le; [|apply (fits_div nb 64); auto]. pose proof (numWords_le nb). lia. Qed.
Lemma lut32 n k : fits32 n -> 64 <= k -> mul32 (add32 (n / k) 1) 4 = (n / k + 1) * 4.
Proof.
  intros F K. pose proof (fits_div n k F K) as X. generalize dependent (n / k). intros b Hb.
  rewrite add32_small by (eapply fits_le; [|exact Hb]; lia). apply mul32_small. eapply fits_le; [|exact Hb]. lia.
Qed.

(** ** Writing *)
Definition rv_small (v : rankVector) : Prop := fits32 (bv_numBits (rv_bv v)) /\ 64 <= rv_blockSize v /\ fits32 (rv_blockSize v).
Definition sv_small (v : selectVector) : Prop := fits32 (bv_numBits (sv_bv v)) /\ fits32 (sv_numOnes v).
Definition xv_small (v : suffixVector) : Prop := fits32 (bv_numBits (xv_bv v)) /\ fits32 (xv_hashLen v) /\ fits32 (xv_realLen v).
Definition pv_small (v : prefixVec) : Prop := rv_small (pv_has v) /\ fits32 (length (pv_offsets v)) /\ fits32 (length (pv_data v)).
Record small (s : surf) : Prop := {
  sm_dh : fits32 (ld_height (s_ld s)); sm_dl : rv_small (ld_label (s_ld s)); sm_dc : rv_small (ld_hasChild (s_ld s)); sm_dp : rv_small (ld_isPrefix (s_ld s));
  sm_dx : xv_small (ld_suffixes (s_ld s)); sm_dv : vv_wf (ld_values (s_ld s)); sm_dr : pv_small (ld_prefix (s_ld s));
  sm_h : fits32 (ls_height (s_ls s)); sm_st : fits32 (ls_startLevel (s_ls s)); sm_dn : fits32 (ls_denseNodeCount (s_ls s)); sm_dcc : fits32 (ls_denseChildCount (s_ls s));
  sm_l : fits32 (4 + length (ls_label (s_ls s))); sm_c : rv_small (ls_hasChild (s_ls s)); sm_lo : sv_small (ls_louds (s_ls s));
  sm_x : xv_small (ls_suffixes (s_ls s)); sm_v : vv_wf (ls_values (s_ls s)); sm_r : pv_small (ls_prefix (s_ls s)) }.

Lemma rv_raw32 v : rv_small v -> rv_rawSize32 v = rv_rawSize v.
Proof. intros (F & K & _). unfold rv_rawSize32, rv_rawSize, rlut32, rv_lutSize, bitsSize. now rewrite bits32, lut32. Qed.
Lemma sv_raw32 v : sv_small v -> sv_rawSize32 v = sv_rawSize v.
Proof. intros (F & K). unfold sv_rawSize32, sv_rawSize, slut32, sv_lutSize, bitsSize. now rewrite bits32, lut32 by (auto; lia). Qed.
Lemma xv_raw32 v : xv_small v -> xv_rawSize32 v = xv_rawSize v.
Proof. intros (F & _). unfold xv_rawSize32, xv_rawSize, bitsSize. now rewrite bits32. Qed.
Lemma pv_raw32 v : pv_small v -> pv_rawSize32 v = pv_rawSize v.
Proof. intros (F & _). unfold pv_rawSize32, pv_rawSize, rv_size32, rv_size. now rewrite rv_raw32. Qed.
Lemma rv_write32_same v : rv_small v -> rv_write32 v = rv_write v.
Proof. intros F. unfold rv_write32, rv_write. now rewrite rv_raw32. Qed.
Lemma sv_write32_same v : sv_small v -> sv_write32 v = sv_write v.
Proof. intros F. unfold sv_write32, sv_write. now rewrite sv_raw32. Qed.
Lemma xv_write32_same v : xv_small v -> xv_write32 v = xv_write v.
Proof. intros F. unfold xv_write32, xv_write. now rewrite xv_raw32. Qed.
Lemma pv_write32_same v : pv_small v -> pv_write32 v = pv_write v.
Proof. intros F. unfold pv_write32, pv_write. now rewrite pv_raw32, rv_write32_same by (auto; apply F). Qed.
Lemma raw32 s : small s -> ld_rawSize32 (s_ld s) = ld_rawSize (s_ld s) /\ ls_rawSize32 (s_ls s) = ls_rawSize (s_ls s).
Proof.
  intros []. unfold ld_rawSize32, ld_rawSize, ls_rawSize32, ls_rawSize, rv_size32, rv_size, sv_size32, sv_size, xv_size32, xv_size, pv_size32, pv_size.
  rewrite !rv_raw32, !sv_raw32, !xv_raw32, !pv_raw32 by auto. auto.
Qed.
Lemma marshal32_same s : small s -> marshal32 s = marshal s /\ marshalSize32 s = marshalSize s /\ marshalNoValueSize32 s = marshalNoValueSize s.
Proof.
  intros H. destruct (raw32 s H) as (R1 & R2). unfold marshal32, marshal, marshalSize32, marshalSize, marshalNoValueSize32, marshalNoValueSize, ld_size32, ld_size, ls_size32, ls_size, ld_write32, ld_write, ls_write32, ls_write.
  rewrite R1, R2. destruct H. rewrite !rv_write32_same, !sv_write32_same, !xv_write32_same, !pv_write32_same by auto. auto.
Qed.

(** ** Reading *)
Lemma getw_small b n : get32 b = Ok n -> fits32 n -> getw b = Ok n.
Proof. intros E F. unfold getw. rewrite E. cbn [bind]. now rewrite w32_small. Qed.
Lemma slice_len {A} (l : list A) a b x : slice l a b = Ok x -> length x = b - a.
Proof. unfold slice. destruct (Nat.leb_spec a b), (Nat.leb_spec b (length l)); cbn [andb]; intros E; try discriminate. apply OkI in E. subst x. rewrite firstn_length, skipn_length. lia. Qed.
Ltac split_ok H := apply OkI in H; pose proof (f_equal fst H); pose proof (f_equal snd H); clear H; cbn [fst snd] in *; subst.
Lemma vv_read_same b v rest : vv_read b = Ok (v, rest) -> vv_wf v -> vv_read32 b = Ok (v, rest).
Proof.
  unfold vv_read, vv_read32. intros H (F1 & F2). apply bindI in H as (sz & E1 & H). apply bindI in H as (b1 & E2 & H). apply bindI in H as (vs & E3 & H). apply bindI in H as (bs & E4 & H). apply bindI in H as (r & E5 & H). split_ok H.
  cbn [vv_bytes vv_valueSize] in *. pose proof (slice_len _ _ _ _ E4) as L. rewrite (getw_small _ sz E1) by (rewrite L in F1; eapply fits_le; [|exact F1]; lia).
  cbn [bind]. rewrite E2. cbn [bind]. rewrite (getw_small _ vs E3 F2). cbn [bind]. rewrite E4. cbn [bind]. rewrite E5. reflexivity.
Qed.
Lemma rv_read_same b v rest : rv_read b = Ok (v, rest) -> rv_small v -> rv_read32 b = Ok (v, rest).
Proof.
  unfold rv_read, rv_read32. cbv zeta. intros H F. apply bindI in H as (nb & E1 & H). apply bindI in H as (b1 & E2 & H). apply bindI in H as (blk & E3 & H). apply bindI in H as (ws & E4 & H).
  destruct (Nat.eqb blk 0) eqn:Z; [discriminate|]. apply bindI in H as (lut & E5 & H). apply bindI in H as (r & E6 & H). split_ok H.
  destruct F as (F1 & F2 & F3). cbn [rv_bv bv_numBits rv_blockSize] in *. rewrite (getw_small _ nb E1 F1). cbn [bind]. rewrite E2. cbn [bind]. rewrite (getw_small _ blk E3 F3). cbn [bind].
  unfold rlut32. rewrite bits32, lut32 by auto. rewrite E4. cbn [bind]. rewrite Z, E5. cbn [bind]. rewrite E6. reflexivity.
Qed.
Lemma sv_read_same b v rest : sv_read b = Ok (v, rest) -> sv_small v -> sv_read32 b = Ok (v, rest).
Proof.
  unfold sv_read, sv_read32. cbv zeta. intros H F. apply bindI in H as (nb & E1 & H). apply bindI in H as (b1 & E2 & H). apply bindI in H as (no & E3 & H). apply bindI in H as (ws & E4 & H).
  apply bindI in H as (lut & E5 & H). apply bindI in H as (r & E6 & H). split_ok H.
  destruct F as (F1 & F3). cbn [sv_bv bv_numBits sv_numOnes] in *. rewrite (getw_small _ nb E1 F1). cbn [bind]. rewrite E2. cbn [bind]. rewrite (getw_small _ no E3 F3). cbn [bind].
  unfold slut32. rewrite bits32, lut32 by (auto; lia). rewrite E4. cbn [bind]. rewrite E5. cbn [bind]. rewrite E6. reflexivity.
Qed.
Lemma lab_read_same b l rest : lab_read b = Ok (l, rest) -> fits32 (4 + length l) -> lab_read32 b = Ok (l, rest).
Proof.
  unfold lab_read, lab_read32. intros H F. apply bindI in H as (n & E1 & H). apply bindI in H as (l' & E2 & H). apply bindI in H as (r & E3 & H). split_ok H.
  pose proof (slice_len _ _ _ _ E2) as L. assert (FN : fits32 (4 + n)) by (rewrite L in F; eapply fits_le; [|exact F]; lia).
  rewrite (getw_small _ n E1) by (eapply fits_le; [|exact FN]; lia). cbn [bind]. rewrite add32_small by exact FN. rewrite E2. cbn [bind]. rewrite E3. reflexivity.
Qed.
Lemma xv_read_same b v rest : xv_read b = Ok (v, rest) -> xv_small v -> xv_read32 b = Ok (v, rest).
Proof.
  unfold xv_read, xv_read32. intros H F. apply bindI in H as (nb & E1 & H). apply bindI in H as (tb & E2 & H). apply bindI in H as (t & E3 & H). apply bindI in H as (b1 & E4 & H). apply bindI in H as (hl & E5 & H).
  apply bindI in H as (b2 & E6 & H). apply bindI in H as (rl & E7 & H). apply bindI in H as ((ws & cu) & E8 & H). apply bindI in H as (r & E9 & H). split_ok H.
  destruct F as (F1 & F2 & F3). cbn [xv_bv bv_numBits xv_hashLen xv_realLen] in *. rewrite (getw_small _ nb E1 F1). cbn [bind]. rewrite E2. cbn [bind]. rewrite E3. cbn [bind]. rewrite E4. cbn [bind]. rewrite (getw_small _ hl E5 F2). cbn [bind].
  rewrite E6. cbn [bind]. rewrite (getw_small _ rl E7 F3). cbn [bind]. rewrite bits32 by auto. rewrite E8. cbn [bind]. rewrite E9. reflexivity.
Qed.
Lemma pv_read_same b v rest : pv_read b = Ok (v, rest) -> pv_small v -> pv_read32 b = Ok (v, rest).
Proof.
  unfold pv_read, pv_read32. cbv zeta. intros H F. apply bindI in H as ((has & b1) & E1 & H). apply bindI in H as (ol & E2 & H). apply bindI in H as (b2 & E3 & H). apply bindI in H as (dl & E4 & H).
  apply bindI in H as (os & E5 & H). apply bindI in H as (ds & E6 & H). apply bindI in H as (r & E7 & H). split_ok H. pose proof F as F'. destruct F as (F1 & F2 & F3). cbn [pv_has pv_offsets pv_data] in *.
  pose proof (slice_len _ _ _ _ E5) as L5. pose proof (slice_len _ _ _ _ E6) as L6.
  rewrite (rv_read_same _ _ _ E1 F1). cbn [bind]. rewrite (getw_small _ ol E2) by (eapply fits_le; [|exact F2]; lia). cbn [bind]. rewrite E3. cbn [bind].
  rewrite (getw_small _ dl E4) by (eapply fits_le; [|exact F3]; lia). cbn [bind]. rewrite E5. cbn [bind]. rewrite E6. cbn [bind]. unfold pv_size32. rewrite pv_raw32 by exact F'. unfold pv_size in E7. rewrite E7. reflexivity.
Qed.
Theorem unmarshal_same b s : unmarshal b = Ok s -> small s -> unmarshal32 b = Ok s.
Proof.
  unfold unmarshal, unmarshal32. intros H SM. apply bindI in H as ((ld & r1) & E1 & H). apply bindI in H as ((ls & r2) & E2 & H). apply bindI in H as ((dv & r3) & E3 & H). apply bindI in H as ((sv & r4) & E4 & H).
  apply OkI in H. subst s. destruct SM. cbn [s_ld s_ls] in *.
  assert (Q1 : ld_read32 b = Ok (ld, r1)).
  { clear E2 E3 E4. unfold ld_read, ld_read32 in *. apply bindI in E1 as (h & G1 & H). apply bindI in H as (c0 & G2 & H). apply bindI in H as ((x1 & c1) & G3 & H). apply bindI in H as ((x2 & c2) & G4 & H).
    apply bindI in H as ((x3 & c3) & G5 & H). apply bindI in H as ((x4 & c4) & G6 & H). apply bindI in H as ((x5 & c5) & G7 & H). apply bindI in H as (c6 & G8 & H). split_ok H.
    cbn [ld_label ld_hasChild ld_isPrefix ld_suffixes ld_values ld_prefix ld_height] in *.
    rewrite (getw_small _ _ G1) by auto. cbn [bind]. rewrite G2. cbn [bind]. rewrite (rv_read_same _ _ _ G3) by auto. cbn [bind]. rewrite (rv_read_same _ _ _ G4) by auto. cbn [bind].
    rewrite (rv_read_same _ _ _ G5) by auto. cbn [bind]. rewrite (xv_read_same _ _ _ G6) by auto. cbn [bind]. rewrite (pv_read_same _ _ _ G7) by auto. cbn [bind]. rewrite G8. reflexivity. }
  assert (Q2 : ls_read32 r1 = Ok (ls, r2)).
  { clear E1 Q1 E3 E4. unfold ls_read, ls_read32 in *. apply bindI in E2 as (h & G1 & H). apply bindI in H as (c0 & G2 & H). apply bindI in H as (st & G3 & H). apply bindI in H as (c1 & G4 & H).
    apply bindI in H as (dn & G5 & H). apply bindI in H as (c2 & G6 & H). apply bindI in H as (dc & G7 & H). apply bindI in H as (c3 & G8 & H). apply bindI in H as ((x1 & c4) & G9 & H). apply bindI in H as ((x2 & c5) & G10 & H).
    apply bindI in H as ((x3 & c6) & G11 & H). apply bindI in H as ((x4 & c7) & G12 & H). apply bindI in H as ((x5 & c8) & G13 & H). apply bindI in H as (c9 & G14 & H). split_ok H.
    cbn [ls_height ls_startLevel ls_denseNodeCount ls_denseChildCount ls_label ls_hasChild ls_louds ls_suffixes ls_values ls_prefix] in *.
    rewrite (getw_small _ _ G1) by auto. cbn [bind]. rewrite G2. cbn [bind]. rewrite (getw_small _ _ G3) by auto. cbn [bind]. rewrite G4. cbn [bind]. rewrite (getw_small _ _ G5) by auto. cbn [bind]. rewrite G6. cbn [bind].
    rewrite (getw_small _ _ G7) by auto. cbn [bind]. rewrite G8. cbn [bind]. rewrite (lab_read_same _ _ _ G9) by auto. cbn [bind]. rewrite (rv_read_same _ _ _ G10) by auto. cbn [bind].
    rewrite (sv_read_same _ _ _ G11) by auto. cbn [bind]. rewrite (xv_read_same _ _ _ G12) by auto. cbn [bind]. rewrite (pv_read_same _ _ _ G13) by auto. cbn [bind]. rewrite G14. reflexivity. }
  rewrite Q1. cbn [bind]. rewrite Q2. cbn [bind].
  assert (V1 : vv_wf dv /\ vv_wf sv).
  { clear - sm_dv0 sm_v0 E1 E2. unfold ld_read in E1. repeat (apply bindI in E1 as (? & _ & E1); try match goal with x : _ * _ |- _ => destruct x end). split_ok E1.
    unfold ls_read in E2. repeat (apply bindI in E2 as (? & _ & E2); try match goal with x : _ * _ |- _ => destruct x end). split_ok E2. cbn [ld_values ls_values] in *. auto. }
  destruct V1. rewrite (vv_read_same _ _ _ E3) by auto. cbn [bind]. rewrite (vv_read_same _ _ _ E4) by auto. reflexivity.
Qed.

(* ------------------------------------------------------------------ *)
(** ** Filters within the limits *)
Lemma offsets_length : forall ps off, length (prefix_offsets ps off) = 4 * length ps.
Proof. induction ps as [|p ps IH]; intros off; cbn [prefix_offsets length]; auto. rewrite app_length, put32_length, IH. lia. Qed.
Lemma pv_rep_small v P M : pv_rep v P -> length P <= M -> (N.of_nat M < 16777216)%N -> fits32 (length (pv_offsets v)) /\ fits32 (length (pv_data v)).
Proof.
  intros (_ & O & D & F) L M1. rewrite O, D, offsets_length, concat_filter_nonempty. split; auto. pose proof (SurfWordLim.filter_length_le nonempty P). fit.
Qed.
Lemma pv_init_bits hb nn P v : prefixVec_init hb nn P = Ok v -> bv_numBits (rv_bv (pv_has v)) = nsum nn.
Proof. unfold prefixVec_init. intros H. apply bindI in H as (has & E & H). apply OkI in H. subst v. cbn [pv_has]. eapply rv_init_bits; exact E. Qed.
Lemma xv_init_bits t h r ls nums v : suffixVector_init t h r ls nums = Ok v -> bv_numBits (xv_bv v) = nsum nums.
Proof. unfold suffixVector_init. intros H. apply bindI in H as (bv & E & H). apply OkI in H. subst v. cbn [xv_bv]. eapply bv_init_bits; exact E. Qed.
Lemma sv_init_bits ls nums v : selectVector_init ls nums = Ok v -> bv_numBits (sv_bv v) = nsum nums.
Proof. unfold selectVector_init. intros H. apply bindI in H as (bv & E & H). apply bindI in H as ((a & b) & _ & H). apply OkI in H. subst v. cbn [sv_bv]. eapply bv_init_bits; exact E. Qed.
Lemma nsum_firstn_le : forall (l : list nat) k, nsum (firstn k l) <= nsum l.
Proof. intros l k. rewrite <- (firstn_skipn k l) at 2. rewrite nsum_app. lia. Qed.

Lemma ld_init_nums b ld : ld_init b = Ok ld ->
  bv_numBits (rv_bv (ld_isPrefix ld)) = nsum (map lv_nodeCount (b_levels b)) /\ bv_numBits (rv_bv (pv_has (ld_prefix ld))) <= nsum (map lv_nodeCount (b_levels b)).
Proof.
  unfold ld_init. cbv zeta. intros H.
  apply bindI in H as (ldl & E1 & H). apply bindI in H as (ldh & E2 & H). apply bindI in H as (ldp & E3 & H). apply bindI in H as (lvs & E4 & H). apply slice_0 in E4. subst lvs.
  apply bindI in H as (label & E5 & H). apply bindI in H as (hasc & E6 & H). apply bindI in H as (isp & E7 & H). apply bindI in H as (sx & E8 & H).
  apply bindI in H as (pre & E9 & H). apply OkI in H. subst ld. cbn [ld_isPrefix ld_prefix].
  split; [eapply rv_init_bits; exact E7|]. rewrite (pv_init_bits _ _ _ _ E9), <- firstn_map. apply nsum_firstn_le.
Qed.
Lemma ls_init_nums b ls : ls_init b = Ok ls -> bv_numBits (rv_bv (pv_has (ls_prefix ls))) <= nsum (map lv_nodeCount (b_levels b)).
Proof.
  unfold ls_init. cbv zeta. intros H. apply bindI in H as (dl & E1 & H). apply bindI in H as (dc & E2 & H). apply bindI in H as (sl & E3 & H). apply slice_from_inv in E3. subst sl.
  apply bindI in H as (hasc & E6 & H). apply bindI in H as (louds & E7 & H). apply bindI in H as (sx & E8 & H). apply bindI in H as (pre & E9 & H). apply OkI in H. subst ls. cbn [ls_prefix].
  rewrite (pv_init_bits _ _ _ _ E9). rewrite <- (firstn_skipn (b_sparseStart b) (b_levels b)) at 2. rewrite map_app, nsum_app. lia.
Qed.
Lemma sx_small fp c xv its : cfg_ok c -> c_hashLen c + c_realLen c <= 64 -> sx_rep fp c xv its -> fits32 (length its * 64) -> xv_small xv.
Proof.
  intros (_ & CL) HR ((T1 & T2) & X) F. unfold xv_small. destruct (suffixType_eqb (c_type c) NoneSuffix) eqn:E.
  - rewrite T2 by (destruct (c_type c); try discriminate; reflexivity). cbn. fit.
  - destruct X as (-> & -> & (B & _)); [intros Q; rewrite Q in E; discriminate|]. rewrite B, sufbits_length, map_length. split; [|fit].
    eapply fits_le; [|exact F]. apply Nat.mul_le_mono_l. exact CL.
Qed.
Lemma blk64 : 64 <= rankDenseBlockSize /\ fits32 rankDenseBlockSize /\ 64 <= rankSparseBlockSize /\ fits32 rankSparseBlockSize.
Proof. unfold rankDenseBlockSize, rankSparseBlockSize. fit. Qed.

Section Small.
Variables (fp : bytes -> N) (vs h r : nat) (keys vals : list bytes) (hint : Z) (s : surf).
Hypothesis V : valid_input vs h r keys vals.
Hypothesis B : built fp vs h r keys vals hint s.
Hypothesis SM : (N.of_nat (length keys) < 8388608)%N.
Hypothesis FV : fits32 (length keys * vs).
Theorem built_small : small s.
Proof.
  destruct B as (fuel & b0 & HFu & E0). destruct (surf_build_full fp vs h r keys vals hint fuel V HFu) as (s' & b' & lvs & E & RP & R & EL & ES & E3 & E4).
  rewrite E in E0. apply OkI in E0. assert (s' = s) by (now apply (f_equal fst) in E0). subst s'. clear E0.
  destruct (built_rep fp vs h r keys vals hint s V B) as (_ & _ & W & CT & LO & MF & _).
  assert (LK : length (combine keys vals) = length keys) by (rewrite <- MF at 2; symmetry; apply map_length).
  pose proof (items_total _ W) as IT. pose proof (nodes_le _ W) as NT. pose proof (leaves_total _ W) as LT. rewrite LK in *.
  set (NSS := trie (combine keys vals)) in *. set (c := mkcfg vs h r) in *. set (cut := determineCutoffLevel lvs (length keys) (h + r) hint) in *.
  assert (SL : c_hashLen c + c_realLen c <= 64) by apply V.
  assert (NNE : Forall (fun L => L <> []) NSS) by (apply Forall_forall; intros L HL; eapply blevels_ne; exact HL).
  assert (LN : length NSS <= length (concat NSS)).
  { clear - NNE. induction NNE as [|L R HL _ IH]; [cbn; lia|]. cbn [concat length]. rewrite app_length. destruct L; [congruence|]. cbn [length]. lia. }
  pose proof (sum_nodes _ _ _ _ R) as S1. destruct (ld_init_nums _ _ E3) as (I1 & I2). pose proof (ls_init_nums _ _ E4) as I3. rewrite EL, S1 in I1, I2, I3.
  destruct RP as (CL & _ & _ & WF & LD & LS).
  assert (EC : concat NSS = concat (firstn cut NSS) ++ concat (skipn cut NSS)) by (rewrite <- concat_app, firstn_skipn; reflexivity).
  pose proof LO as LO2. rewrite EC, leaves_app in LO2. apply Forall_app in LO2 as (LO1 & LO2).
  rewrite EC in WF. apply Forall_app in WF as (WD & WS). rewrite EC, leaves_app, app_length in LT. rewrite EC, flat_map_app, !app_length in IT. rewrite EC, app_length in NT, I1, I2, I3, LN.
  set (DN := concat (firstn cut NSS)) in *. set (SN := concat (skipn cut NSS)) in *. clear EC. pose proof blk64 as (K1 & K2 & K3 & K4).
  assert (VS : fits32 vs). { destruct keys as [|k0 keys0] eqn:EK; [destruct V as [X]; cbn in X; congruence|]. cbn [length] in FV. eapply fits_le; [|exact FV]. nia. }
  assert (VB : forall its, Forall (leaf_ok c) its -> length its <= length keys -> fits32 (length (flat_map (ivalue c) its))).
  { intros its LI LE. rewrite ivalues_length by auto. eapply fits_le; [|exact FV]. apply Nat.mul_le_mono_r. exact LE. }
  destruct LD as [D1 D2 (pad & D3) D4 (D5 & D5') D6 D7]. destruct LS as [L1 L2 L3 L4 L5 L6 L7 L8 (L9 & L9') L10].
  pose proof (SurfWordLim.filter_length_le hasc (flat_map items DN)) as FL.
  constructor.
  - rewrite D7. fit.
  - destruct D1 as ((X & _) & Y & _). unfold rv_small. rewrite X, Y, (flat_256 dlab _ dlab_length). split; [fit|auto].
  - destruct D2 as ((X & _) & Y & _). unfold rv_small. rewrite X, Y, (flat_256 dhas _ dhas_length). split; [fit|auto].
  - destruct D3 as (_ & Y & _). unfold rv_small. rewrite I1, Y. split; [fit|auto].
  - eapply sx_small; [exact CT|exact SL|exact D4|fit].
  - split; [rewrite D5'; apply VB; auto; lia|rewrite D5; exact VS].
  - split; [|eapply pv_rep_small; [exact D6|rewrite map_length; apply Nat.le_refl|lia]]. destruct D6 as ((p & (_ & Y & _)) & _). unfold rv_small. rewrite Y. split; [fit|auto].
  - rewrite L1. fit.
  - rewrite L2. fit.
  - rewrite L3. fit.
  - rewrite L4. fit.
  - rewrite L5, app_length, map_length. cbn [length]. fit.
  - destruct L6 as ((X & _) & Y & _). unfold rv_small. rewrite X, Y, map_length. split; [fit|auto].
  - destruct L7 as ((X & _) & Y & _). unfold sv_small. rewrite X, Y. pose proof (cntl_len (flat_map loudsb SN) (length (flat_map loudsb SN))) as CL1. rewrite loudsb_length in * by auto. split; fit.
  - eapply sx_small; [exact CT|exact SL|exact L8|fit].
  - split; [rewrite L9'; apply VB; auto; lia|rewrite L9; exact VS].
  - split; [|eapply pv_rep_small; [exact L10|rewrite map_length; apply Nat.le_refl|lia]]. destruct L10 as ((p & (_ & Y & _)) & _). unfold rv_small. rewrite Y. split; [fit|auto].
Qed.
Theorem built_fields_fit : fields_fit s.
Proof.
  destruct built_small as [H1 (H2 & _) (H3 & _) (H4 & _) (H5 & _) (H6 & H7) ((H8 & _) & H9 & H10) H11 H12 H13 H14 H15 (H16 & _) (H17 & _) (H18 & _) (H19 & H20) ((H21 & _) & H22 & H23)].
  constructor; repeat (apply Forall_cons; [auto|]); try apply Forall_nil. eapply fits_le; [|exact H15]. lia.
Qed.
Theorem roundtrip32 : marshal32 s = marshal s /\ marshalSize32 s = marshalSize s /\ marshalNoValueSize32 s = marshalNoValueSize s /\ forall rest, unmarshal32 (marshal32 s ++ rest) = Ok s.
Proof.
  destruct (marshal32_same s built_small) as (E & E2 & E3). split; auto. split; auto. split; auto. intros rest. rewrite E. apply unmarshal_same; [|exact built_small].
  eapply built_roundtrip; eauto. exact built_fields_fit.
Qed.
End Small.

(** Nothing with 4 GiB of values in one part comes back. *)
Lemma w32_fits x : fits32 (w32 x).
Proof. unfold fits32, w32, two32. rewrite N2Nat.id. apply N.mod_lt. discriminate. Qed.
Lemma vv_read32_fits b v rest : vv_read32 b = Ok (v, rest) -> fits32 (length (vv_bytes v)).
Proof.
  unfold vv_read32, getw. intros H. apply bindI in H as (sz & E1 & H). apply bindI in H as (b1 & _ & H). apply bindI in H as (x & _ & H). apply bindI in H as (bs & E4 & H). apply bindI in H as (r & _ & H). split_ok H.
  cbn [vv_bytes]. rewrite (slice_len _ _ _ _ E4). apply bindI in E1 as (n & _ & E1). apply OkI in E1. subst sz. pose proof (w32_fits n). fit.
Qed.
Lemma unmarshal32_fits b s : unmarshal32 b = Ok s -> fits32 (length (vv_bytes (ld_values (s_ld s)))) /\ fits32 (length (vv_bytes (ls_values (s_ls s)))).
Proof.
  unfold unmarshal32. intros H. apply bindI in H as ((ld & r1) & E1 & H). apply bindI in H as ((ls & r2) & E2 & H). apply bindI in H as ((dv & r3) & E3 & H). apply bindI in H as ((sv & r4) & E4 & H). apply OkI in H. subst s. cbn [s_ld s_ls].
  apply vv_read32_fits in E3, E4.
  unfold ld_read32 in E1. repeat (apply bindI in E1 as (? & _ & E1); try match goal with x : _ * _ |- _ => destruct x end). split_ok E1.
  unfold ls_read32 in E2. repeat (apply bindI in E2 as (? & _ & E2); try match goal with x : _ * _ |- _ => destruct x end). split_ok E2. auto.
Qed.
Theorem big_not_restored s rest : (4294967296 <= N.of_nat (length (vv_bytes (ld_values (s_ld s)))))%N \/ (4294967296 <= N.of_nat (length (vv_bytes (ls_values (s_ls s)))))%N ->
  unmarshal32 (marshal32 s ++ rest) <> Ok s.
Proof. intros H E. apply unmarshal32_fits in E as (F1 & F2). fit. Qed.
Theorem big_lost : exists fp vs keys vals s, valid_input vs 0 0 keys vals /\ built32 fp vs 0 0 keys vals 0 s /\ forall rest, unmarshal32 (marshal32 s ++ rest) <> Ok s.
Proof.
  assert (Q : exists vs, N.of_nat vs = 2147483648%N) by (exists (N.to_nat 2147483648); apply N2Nat.id). destruct Q as (vs & B).
  destruct (big_get (fun _ => 0%N) vs (repeat 1 vs) (repeat 2 vs) (repeat 3 vs) B) as (V & s & B32 & _ & L); try apply repeat_length.
  exists (fun _ => 0%N), vs, big_keys, [repeat 1 vs; repeat 2 vs; repeat 3 vs], s. split; [exact V|]. split; [exact B32|]. intros rest. apply big_not_restored. right. rewrite L. lia.
Qed.

(** From Build to Get of the restored filter, all with 32-bit words. *)
Theorem restored32 fp vs h r keys vals hint s : valid_input vs h r keys vals -> (N.of_nat (length keys) < 8388608)%N -> Forall shortkey keys -> fits32 (length keys * vs) ->
  built32 fp vs h r keys vals hint s ->
  length (marshal32 s) = marshalSize32 s /\ forall rest, unmarshal32 (marshal32 s ++ rest) = Ok s.
Proof.
  intros V SM SK FV B32. apply (built32_iff fp vs h r keys vals hint s V SM SK FV) in B32.
  destruct (roundtrip32 fp vs h r keys vals hint s V B32 SM FV) as (E1 & E2 & _ & R). split; [|exact R]. rewrite E1, E2. eapply built_sizes; eauto. eapply built_fields_fit; eauto.
Qed.
Theorem found32 fp vs h r keys vals hint : valid_input vs h r keys vals -> (N.of_nat (length keys) < 8388608)%N -> Forall shortkey keys -> fits32 (length keys * vs) ->
  exists s, built32 fp vs h r keys vals hint s /\ forall rest, exists s', unmarshal32 (marshal32 s ++ rest) = Ok s' /\
    forall i k v, nth_error keys i = Some k -> nth_error vals i = Some v -> surf_get32 fp s' k = Ok (Some (firstn vs v)).
Proof.
  intros V SM SK FV. destruct (stored32 fp vs h r keys vals hint V SM SK FV) as (s & B32 & G). exists s. split; [exact B32|]. intros rest. exists s. split; [|exact G].
  destruct (restored32 fp vs h r keys vals hint s V SM SK FV B32) as (_ & R). apply R.
Qed.
