(** * SurfWordBuild2: the vectors and the whole of Build with uint32 arithmetic. *)
From Verif Require Import Base BitsModel BitsFacts VecModel SurfModel SurfWord VecProofs VecProofs2 SurfTrie SurfBuild SurfDense SurfEnc SurfBuildTop SurfSpec SurfTop SurfSize SurfMarshalProofs SurfWordProofs SurfWordBuild SurfWordLim.

Lemma nsum_in x l : In x l -> x <= nsum l.
Proof. unfold nsum. induction l as [|y l IH]; intros []; cbn; [subst; lia|]. specialize (IH H). lia. Qed.
Lemma fst3 {A B C} (a a' : A) (b b' : B) (c c' : C) : (a, b, c) = (a', b', c') -> a = a'.
Proof. congruence. Qed.
Lemma map_same {A} (f : A -> A) l : (forall x, In x l -> f x = x) -> map f l = l.
Proof. intros H. rewrite <- (map_id l) at 2. now apply map_ext_in. Qed.

(* ------------------------------------------------------------------ *)
(** ** Vectors *)

Lemma bv_init32 ls nums : fits32 (nsum nums) -> bitVector_init32 ls nums = bitVector_init ls nums.
Proof. intros F. unfold bitVector_init32, bitVector_init. now rewrite w32_small. Qed.
Lemma rank_blocks32_ok bs w b : forall todo i total lut, rank_blocks todo i bs w b total = Ok lut -> Forall fits32 lut -> rank_blocks32 todo i bs w b total = Ok lut /\ fits32 total.
Proof.
  induction todo as [|todo IH]; intros i total lut H F; cbn [rank_blocks rank_blocks32] in *.
  - split; auto. apply OkI in H. subst lut. now inversion F.
  - apply bindI in H as (p & -> & H). apply bindI in H as (rest & E & H). apply OkI in H. subst lut. inversion F as [|? ? F1 F2]; subst. cbn [bind].
    destruct (IH _ _ _ E F2) as (E2 & FT). rewrite add32_small by exact FT. rewrite E2. auto.
Qed.
Lemma rv_init32 bsz ls nums v B : rankVector_init bsz ls nums = Ok v -> rv_rep bsz v B -> fits32 (nsum nums) -> rankVector_init32 bsz ls nums = Ok v.
Proof.
  intros H R F. pose proof (rv_init_bits _ _ _ _ H) as NB. unfold rankVector_init32, rankVector_init in *. rewrite bv_init32 by auto.
  apply bindI in H as (bv & -> & H). cbn [bind]. cbv zeta in *. apply bindI in H as (lut & E & H). apply OkI in H. subst v.
  apply rank_blocks32_ok in E as (-> & _); [reflexivity|]. destruct R as ((N1 & _) & _ & L). cbn [rv_lut rv_bv] in *. subst lut.
  apply Forall_forall. intros x Hx. apply in_map_iff in Hx as (j & <- & _). pose proof (cntl_top B (j * bsz)). pose proof (cntl_len B (length B)). fit.
Qed.
Lemma sv_init32 ls nums v B : selectVector_init ls nums = Ok v -> sv_rep v B -> fits32 (nsum nums) -> selectVector_init32 ls nums = Ok v.
Proof.
  intros H R F. unfold selectVector_init32, selectVector_init in *. rewrite bv_init32 by auto. apply bindI in H as (bv & EB & H). rewrite EB. cbn [bind].
  apply bv_init_bits in EB. apply bindI in H as ((ones & lut) & -> & H). cbn [bind]. apply OkI in H. subst v. destruct R as ((N1 & _) & N2 & _ & L0 & LJ).
  cbn [sv_bv sv_numOnes sv_lut] in *. pose proof (cntl_len B (length B)). rewrite w32_small by fit. rewrite map_same; [reflexivity|].
  intros x Hx. apply w32_small. apply In_nth_error in Hx as (j & Ej). destruct j as [|j].
  - rewrite L0 in Ej. inversion Ej. subst. fit.
  - destruct (LJ (S j) x ltac:(lia) Ej) as (Lx & _). fit.
Qed.
Lemma skipn_repeat {A} (x : A) : forall n m, skipn n (repeat x m) = repeat x (m - n).
Proof. induction n as [|n IH]; intros [|m]; cbn; auto. Qed.
Lemma copy_levels32_ok k : forall ls pre, fits32 (length pre + nsum (map (@length nat) ls)) ->
  copy_levels32 ls (length pre) (pre ++ repeat 0 (nsum (map (@length nat) ls) + k)) = Ok (pre ++ concat ls ++ repeat 0 k).
Proof.
  induction ls as [|l ls IH]; intros pre F; [reflexivity|]. cbn [map] in F. cbn [copy_levels32 map]. change (nsum (length l :: map (length (A:=nat)) ls)) with (length l + nsum (map (@length nat) ls)) in *.
  unfold copy_at. rewrite app_length, repeat_length. destruct (Nat.leb_spec (length pre) (length pre + (length l + nsum (map (length (A:=nat)) ls) + k))); [|lia]. cbn [bind].
  rewrite firstn_app, firstn_all, Nat.sub_diag, firstn_O, app_nil_r. rewrite (firstn_all2 (n := _) l) by lia.
  rewrite skipn_app, (skipn_all2 pre) by lia. cbn [app]. rewrite skipn_repeat. rewrite (w32_small (length l)) by fit. rewrite add32_small by fit.
  replace (length l + nsum (map (length (A:=nat)) ls) + k - (length pre + length l - length pre)) with (nsum (map (length (A:=nat)) ls) + k) by lia.
  rewrite app_assoc. rewrite <- (app_length pre l). rewrite IH by (rewrite app_length; fit). cbn [concat]. now rewrite !app_assoc.
Qed.
(** One level is copied whatever its size. *)
Lemma vv_init32_one l vs : valueVector_init32 [l] vs = Ok (valueVector_init [l] vs).
Proof.
  unfold valueVector_init32, valueVector_init. cbn [map copy_levels32]. unfold copy_at. cbn [Nat.leb]. change (nsum [length l]) with (length l + 0). rewrite Nat.add_0_r, repeat_length. cbn [bind].
  rewrite firstn_O, Nat.sub_0_r, firstn_all, skipn_repeat, Nat.sub_diag. cbn [app repeat concat]. reflexivity.
Qed.
Lemma vv_init32 ls vs : fits32 (length (concat ls)) -> valueVector_init32 ls vs = Ok (valueVector_init ls vs).
Proof.
  intros F. rewrite concat_length_nsum in F. unfold valueVector_init32, valueVector_init. pose proof (copy_levels32_ok 0 ls [] F) as C. cbn [length app repeat] in C.
  rewrite Nat.add_0_r, app_nil_r in C. now rewrite C.
Qed.
Lemma label_init32 ls a b : fits32 (nsum (map (@length nat) (firstn (b - a) (skipn a ls)))) -> labelVector_init32 ls a b = Ok (labelVector_init ls a b).
Proof.
  intros F. unfold labelVector_init32, labelVector_init. cbv zeta. pose proof (copy_levels32_ok 1 _ [] F) as C. cbn [length app repeat] in C. rewrite Nat.add_comm in C. exact C.
Qed.
Lemma offsets32 : forall ps off, fits32 (off + length (concat ps)) -> prefix_offsets32 ps off = prefix_offsets ps off.
Proof.
  induction ps as [|p ps IH]; intros off F; [reflexivity|]. cbn [prefix_offsets32 prefix_offsets concat] in *. rewrite app_length in F.
  rewrite (w32_small (length p)), add32_small by fit. rewrite IH by fit. reflexivity.
Qed.
Lemma pv_init32 hb nn P v Q : prefixVec_init hb nn P = Ok v -> pv_rep v Q -> fits32 (nsum nn) -> prefixVec_init32 hb nn P = Ok v.
Proof.
  intros H ((pad & R) & O & D & F) FN. unfold prefixVec_init32, prefixVec_init in *. apply bindI in H as (has & E & H). apply OkI in H. subst v. cbn [pv_has pv_offsets pv_data] in *.
  rewrite (rv_init32 _ _ _ _ _ E R FN). cbn [bind]. rewrite offsets32; [reflexivity|]. rewrite D, concat_filter_nonempty. exact F.
Qed.
Lemma xv_init32 t h r ls nums : fits32 (nsum nums) -> suffixVector_init32 t h r ls nums = suffixVector_init t h r ls nums.
Proof. intros F. unfold suffixVector_init32, suffixVector_init. now rewrite bv_init32. Qed.

(* ------------------------------------------------------------------ *)
(** ** The dense levels *)

Definition wlim (ws : list N) : Prop := (N.of_nat (length ws) <= 67108864)%N.
Lemma setBit_inv bs p bs' : setBit bs p = Ok bs' -> p < 64 * length bs /\ length bs' = length bs.
Proof.
  unfold setBit. intros H. apply bindI in H as (w & E & H). apply idx_lt in E. split; [now apply div64_lt|]. eapply upd_len; exact H.
Qed.
Lemma setLabel32 lv n pos lab hc lab' hc' : wlim lab -> setLabelAndHasChild lv n pos lab hc = Ok (lab', hc') ->
  setLabelAndHasChild32 lv n pos lab hc = Ok (lab', hc') /\ length lab' = length lab /\ length hc' = length hc.
Proof.
  intros WL H. unfold setLabelAndHasChild, setLabelAndHasChild32 in *. apply bindI in H as (l & -> & H). cbn [bind]. apply bindI in H as (lb & E & H).
  pose proof (setBit_inv _ _ _ E) as (PB & LB). unfold wlim in WL. rewrite (mul32_small n 256) by fit. rewrite add32_small by fit. rewrite E. cbn [bind].
  apply bindI in H as (hb & -> & H). cbn [bind]. apply bindI in H as (hc1 & E2 & H). rewrite E2. cbn [bind]. apply OkI in H.
  assert (lb = lab') by (now apply (f_equal fst) in H). assert (hc1 = hc') by (now apply (f_equal snd) in H). subst. split; auto. split; auto.
  destruct hb; [now apply setBit_inv in E2|]. apply OkI in E2. now subst.
Qed.
Lemma dense_loop32_ok lv : forall todo pos n lab hc ip lab' hc' ip', wlim lab -> dense_loop todo pos n lv lab hc ip = Ok (lab', hc', ip') ->
  dense_loop32 todo pos n lv lab hc ip = Ok (lab', hc', ip') /\ length lab' = length lab.
Proof.
  induction todo as [|todo IH]; intros pos n lab hc ip lab' hc' ip' WL H; cbn [dense_loop dense_loop32] in *.
  - split; auto. apply OkI in H. apply fst3 in H; now subst.
  - apply bindI in H as (st & -> & H). cbn [bind]. cbv zeta in *. apply bindI in H as (t & -> & H). cbn [bind]. destruct t.
    + apply bindI in H as (ip1 & -> & H). cbn [bind]. now apply IH.
    + apply bindI in H as ((lb & hc1) & E & H). apply setLabel32 in E as (-> & L1 & L2); auto. cbn [bind].
      apply IH in H as (-> & L3); [|unfold wlim in *; now rewrite L1]. split; auto. congruence.
Qed.
Lemma dense_level32_ok lv lab hc ip lab' hc' ip' : lim (length (lv_labels lv)) -> wlim lab -> buildDense_level lv lab hc ip = Ok (lab', hc', ip') ->
  buildDense_level32 lv lab hc ip = Ok (lab', hc', ip') /\ length lab' = length lab.
Proof.
  intros LM WL H. unfold buildDense_level, buildDense_level32 in *. assert (NI : numItems32 lv = numItems lv) by (unfold numItems32, numItems; now rewrite w32_small by fit).
  rewrite NI. destruct (Nat.eqb (numItems lv) 0).
  - split; auto. apply OkI in H. apply fst3 in H; now subst.
  - apply bindI in H as (t & -> & H). cbn [bind]. apply bindI in H as (((lb & hc1) & ip1) & E & H).
    assert (Q : (if t then ip0 <- setBit ip 0;; Ok (lab, hc, ip0) else ' (lab0, hc0) <- setLabelAndHasChild32 lv 0 0 lab hc;; Ok (lab0, hc0, ip)) = Ok (lb, hc1, ip1) /\ length lb = length lab).
    { destruct t.
      - split; auto. apply bindI in E as (i & _ & E). apply OkI in E. apply fst3 in E; now subst.
      - apply bindI in E as ((l2 & h2) & E1 & E). apply setLabel32 in E1 as (-> & L1 & L2); auto. cbn [bind]. split; auto. apply OkI in E. apply fst3 in E; now subst. }
    destruct Q as (-> & L1). cbn [bind]. apply dense_loop32_ok in H as (-> & L2); [|unfold wlim in *; now rewrite L1]. split; auto. congruence.
Qed.
Lemma dense32_ok : forall todo l b b', Forall lvlim (b_levels b) -> Forall wlim (b_ldLabels b) -> buildDense_loop todo l b = Ok b' -> buildDense_loop32 todo l b = Ok b'.
Proof.
  induction todo as [|todo IH]; intros l b b' LM WL H; cbn [buildDense_loop buildDense_loop32] in *; auto.
  apply bindI in H as (lv & E & H). rewrite E. cbn [bind]. apply idx_Ok, nth_error_In in E. pose proof LM as LM'. rewrite Forall_forall in LM. destruct (LM lv E) as (L1 & L2 & L3).
  cbv zeta in *. change (256 / 64) with 4. rewrite (mul32_small (lv_nodeCount lv) 4) by fit. change (lv_nodeCount lv * 4) with (denseWords (lv_nodeCount lv)).
  assert (WL2 : Forall wlim (b_ldLabels b ++ [repeat 0%N (denseWords (lv_nodeCount lv))])).
  { apply Forall_app. split; auto. constructor; auto. unfold wlim. rewrite repeat_length. unfold denseWords. change (256 / 64) with 4. fit. }
  apply bindI in H as (lab & E1 & H). rewrite E1. cbn [bind]. apply bindI in H as (hc & -> & H). cbn [bind]. apply bindI in H as (ip & -> & H). cbn [bind].
  apply bindI in H as (((lb & hc1) & ip1) & E2 & H).
  assert (WLa : wlim lab) by (apply idx_Ok, nth_error_In in E1; rewrite Forall_forall in WL2; now apply WL2).
  apply dense_level32_ok in E2 as (-> & LL); auto. cbn [bind]. apply bindI in H as (x1 & E3 & H). rewrite E3. cbn [bind].
  apply bindI in H as (x2 & -> & H). cbn [bind]. apply bindI in H as (x3 & -> & H). cbn [bind]. apply IH; auto. cbn [b_ldLabels].
  apply upd_inv in E3 as (_ & ->). apply Forall_forall. intros y Hy. apply In_nth_error in Hy as (j & Ej). rewrite nth_error_set_nth in Ej.
  destruct (Nat.eqb l j); [destruct (Nat.ltb _ _); [|discriminate]; inversion Ej; subst; unfold wlim in *; now rewrite LL|].
  rewrite Forall_forall in WL2. apply WL2. eapply nth_error_In; exact Ej.
Qed.

(* ------------------------------------------------------------------ *)
(** ** The two parts of the filter *)

Definition vals_ok (lvs : list level) (vs : nat) : Prop := valueVector_init32 (map lv_values lvs) vs = Ok (valueVector_init (map lv_values lvs) vs).
Lemma suf_nums32 c0 (lvs : list level) : c0 <= 64 -> fits32 (nsum (map (fun lv => lv_suffixCount lv * c0) lvs)) ->
  map (fun lv => mul32 (lv_suffixCount lv) c0) lvs = map (fun lv => lv_suffixCount lv * c0) lvs.
Proof.
  intros _ F. apply map_ext_in. intros lv H. apply mul32_small. eapply fits_le; [|exact F]. apply nsum_in. change (lv_suffixCount lv * c0) with ((fun lv => lv_suffixCount lv * c0) lv). now apply in_map.
Qed.

Lemma ld_init32_ok fp c b ld DN : ld_init b = Ok ld -> ld_rep fp c ld (b_sparseStart b) DN -> b_hashLen b + b_realLen b <= 64 ->
  fits32 (length DN * 256) -> fits32 (nsum (map lv_nodeCount (b_levels b))) -> fits32 (nsum (map lv_nodeCount (firstn (b_sparseStart b) (b_levels b)))) ->
  fits32 (nsum (map (fun lv => lv_suffixCount lv * (b_hashLen b + b_realLen b)) (firstn (b_sparseStart b) (b_levels b)))) ->
  vals_ok (firstn (b_sparseStart b) (b_levels b)) (b_valueSize b) -> ld_init32 b = Ok ld.
Proof.
  intros H R S F1 F2 F3 F4 VO. unfold ld_init, ld_init32 in *. cbv zeta in *.
  apply bindI in H as (ldl & E1 & H). rewrite E1. cbn [bind]. apply bindI in H as (ldh & E2 & H). rewrite E2. cbn [bind].
  apply bindI in H as (ldp & E3 & H). rewrite E3. cbn [bind]. apply bindI in H as (lvs & E4 & H). rewrite E4. cbn [bind]. apply slice_0 in E4. subst lvs.
  apply bindI in H as (label & E5 & H). apply bindI in H as (hasc & E6 & H). apply bindI in H as (isp & E7 & H). apply bindI in H as (sx & E8 & H).
  apply bindI in H as (pre & E9 & H). apply OkI in H. subst ld. destruct R as [R1 R2 (pad & R3) R4 R5 R6 R7]. cbn [ld_label ld_hasChild ld_isPrefix ld_suffixes ld_values ld_prefix ld_height] in *.
  assert (NB : nsum (map (fun ws : list N => length ws * 64) ldl) = length DN * 256).
  { pose proof (rv_init_bits _ _ _ _ E5) as X. destruct R1 as ((Y & _) & _). rewrite Y, (flat_256 dlab _ dlab_length) in X. auto. }
  assert (NM : map (fun ws : list N => w32 (length ws * 64)) ldl = map (fun ws : list N => length ws * 64) ldl).
  { apply map_ext_in. intros ws Hw. apply w32_small. eapply fits_le; [|exact F1]. rewrite <- NB. apply nsum_in. change (length ws * 64) with ((fun ws : list N => length ws * 64) ws). now apply in_map. }
  rewrite NM. rewrite (rv_init32 _ _ _ _ _ E5 R1) by (rewrite NB; exact F1). cbn [bind]. rewrite (rv_init32 _ _ _ _ _ E6 R2) by (rewrite NB; exact F1). cbn [bind].
  rewrite (rv_init32 _ _ _ _ _ E7 R3) by auto. cbn [bind].
  rewrite (add32_small (b_hashLen b)) by fit. rewrite suf_nums32 by auto. rewrite xv_init32 by auto. rewrite E8. cbn [bind].
  rewrite VO. cbn [bind]. rewrite (pv_init32 _ _ _ _ _ E9 R6) by auto. reflexivity.
Qed.
Lemma ls_init32_ok fp c b ls n DN SN : ls_init b = Ok ls -> ls_rep fp c ls n (b_sparseStart b) DN SN -> b_hashLen b + b_realLen b <= 64 ->
  fits32 (length (b_levels b)) -> fits32 (nsum (map lv_nodeCount (b_levels b)) + nsum (map lv_nodeCount (b_levels b))) ->
  fits32 (nsum (map numItems (skipn (b_sparseStart b) (b_levels b)))) ->
  fits32 (nsum (map (fun lv => lv_suffixCount lv * (b_hashLen b + b_realLen b)) (skipn (b_sparseStart b) (b_levels b)))) ->
  vals_ok (skipn (b_sparseStart b) (b_levels b)) (b_valueSize b) -> ls_init32 b = Ok ls.
Proof.
  intros H R S F1 F2 F3 F4 VO. unfold ls_init, ls_init32 in *. cbv zeta in *. rewrite (w32_small (length (b_levels b))) by auto.
  assert (NS : forall k, nsum (map lv_nodeCount (firstn k (b_levels b))) + nsum (map lv_nodeCount (skipn k (b_levels b))) = nsum (map lv_nodeCount (b_levels b))).
  { intros k. rewrite <- nsum_app, <- map_app. now rewrite firstn_skipn. }
  apply bindI in H as (dl & E1 & H). rewrite E1. cbn [bind]. apply slice_0 in E1. subst dl. specialize (NS (b_sparseStart b)).
  rewrite (w32_small (nsum (map lv_nodeCount (firstn _ _)))) by fit.
  apply bindI in H as (dc & E2 & H).
  assert (Q : (if b_sparseStart b =? 0 then Ok 0 else ' lv <- idx (b_levels b) (b_sparseStart b);; Ok (minus32 (add32 (nsum (map lv_nodeCount (firstn (b_sparseStart b) (b_levels b)))) (lv_nodeCount lv)) 1)) = Ok dc).
  { destruct (Nat.eqb _ _); auto. apply bindI in E2 as (lv & E & E2). rewrite E. cbn [bind]. apply subchk in E2 as (C & ->).
    assert (lv_nodeCount lv <= nsum (map lv_nodeCount (b_levels b))) by (apply nsum_in, in_map; apply idx_Ok in E; eapply nth_error_In; exact E).
    rewrite add32_small by fit. rewrite minus32_small by (auto; fit). reflexivity. }
  rewrite Q. cbn [bind]. apply bindI in H as (sl & E3 & H). rewrite E3. cbn [bind]. apply slice_from_inv in E3. subst sl.
  apply bindI in H as (hasc & E6 & H). apply bindI in H as (louds & E7 & H). apply bindI in H as (sx & E8 & H).
  apply bindI in H as (pre & E9 & H). apply OkI in H. subst ls. destruct R. cbn [ls_height ls_startLevel ls_denseNodeCount ls_denseChildCount ls_label ls_hasChild ls_louds ls_suffixes ls_values ls_prefix] in *.
  assert (NM : map numItems32 (skipn (b_sparseStart b) (b_levels b)) = map numItems (skipn (b_sparseStart b) (b_levels b))).
  { apply map_ext_in. intros lv Hl. unfold numItems32, numItems. apply w32_small. eapply fits_le; [|exact F3]. apply nsum_in. change (length (lv_labels lv)) with (numItems lv). now apply in_map. }
  rewrite label_init32.
  2:{ rewrite firstn_all2 by (rewrite skipn_length, map_length; lia). rewrite skipn_map, map_map. exact F3. }
  cbn [bind]. rewrite NM. rewrite (rv_init32 _ _ _ _ _ E6 lsr_hasc) by auto. cbn [bind]. rewrite (sv_init32 _ _ _ _ E7 lsr_louds) by auto. cbn [bind].
  rewrite (add32_small (b_hashLen b)) by fit. rewrite suf_nums32 by auto. rewrite xv_init32 by auto. rewrite E8. cbn [bind].
  rewrite VO. cbn [bind]. rewrite (pv_init32 _ _ _ _ _ E9 lsr_pre) by fit. reflexivity.
Qed.
