(** * SurfWordProofs: where no counter reaches 2^32, Build and Get with uint32 arithmetic do
    what Build and Get of SurfModel do. *)
From Verif Require Import Base BitsModel BitsFacts VecModel SurfModel SurfWord VecProofs VecProofs2 SurfBuild SurfEnc SurfTop SurfSize SurfAlias SurfAliasProofs.

Ltac Zify.zify_post_hook ::= Z.div_mod_to_equations.
Lemma w32_small x : fits32 x -> w32 x = x.
Proof. unfold fits32, w32, two32. intros H. rewrite N.mod_small by (change (2 ^ 32)%N with 4294967296%N; lia). apply Nat2N.id. Qed.
Lemma add32_small x y : fits32 (x + y) -> add32 x y = x + y.
Proof. apply w32_small. Qed.
Lemma mul32_small x y : fits32 (x * y) -> mul32 x y = x * y.
Proof. apply w32_small. Qed.
Lemma minus32_mod x y : minus32 x y = N.to_nat ((N.of_nat x + 4294967296 - N.of_nat y mod 4294967296) mod 4294967296).
Proof. reflexivity. Qed.
Lemma minus32_small x y : fits32 x -> y <= x -> minus32 x y = x - y.
Proof. unfold fits32. rewrite minus32_mod. intros. lia. Qed.
(** The order of the operations of suffixPos (louds_dense.go:150) does not matter. *)
Lemma minus32_order a b c : fits32 a -> fits32 b -> fits32 (a + c) -> b + 1 <= a + c -> minus32 (add32 (minus32 a b) c) 1 = a + c - (b + 1).
Proof. unfold fits32, add32, w32, two32. change (2 ^ 32)%N with 4294967296%N. rewrite !minus32_mod. intros. lia. Qed.
Lemma div64_lt p n : p / 64 < n -> p < 64 * n.
Proof. lia. Qed.
Ltac Zify.zify_post_hook ::= idtac.
Lemma fits_le x y : x <= y -> fits32 y -> fits32 x.
Proof. unfold fits32. lia. Qed.

Definition lim (n : nat) : Prop := (N.of_nat n <= 16777216)%N.
Definition lim2 (n : nat) : Prop := (N.of_nat n <= 33554432)%N.
Ltac fit := unfold fits32, lim, lim2 in *; lia.

Lemma idx_lt {A} (l : list A) i x : idx l i = Ok x -> i < length l.
Proof. intros H. apply idx_Ok in H. apply nth_error_Some. congruence. Qed.

(* ------------------------------------------------------------------ *)
(** ** Vectors *)

Lemma rank32 bsz v pos r : rank_at bsz v pos = Ok r -> fits32 r -> rank_at32 bsz v pos = Ok r.
Proof.
  unfold rank_at, rank_at32. intros H F. apply bindI in H as (x & -> & H). apply bindI in H as (p & -> & H). apply OkI in H. subst r.
  cbn [bind]. now rewrite add32_small.
Qed.
(** Whatever Rank returns is the number of bits set up to the position. *)
Lemma rank_count bsz v B pos r : 0 < bsz -> bsz mod 64 = 0 -> rv_rep bsz v B -> rank_at bsz v pos = Ok r -> r = cntl B (pos + 1).
Proof.
  intros H0 Hm (HB & _ & Hlut) H. unfold rank_at in H. destruct HB as (H1 & H2 & H3).
  assert (Hdm : pos = bsz * (pos / bsz) + pos mod bsz) by (apply Nat.div_mod; lia).
  assert (Hb : bsz = 64 * (bsz / 64)) by (pose proof (Nat.div_mod bsz 64); lia).
  apply bindI in H as (x & E & H). apply bindI in H as (p & E2 & H). apply OkI in H.
  rewrite Hlut in E. pose proof (idx_lt _ _ _ E) as L. rewrite map_length, seq_length in L. rewrite (idx_in _ _ 0) in E by (rewrite map_length, seq_length; lia).
  apply OkI in E. rewrite nth_map_seq in E by lia.
  rewrite popcountBlock_spec in E2; [|exact (proj1 H3)|lia|].
  - apply OkI in E2. rewrite (cnt_gbit_cntl _ B _ _ H3) in E2.
    replace (64 * (pos / bsz * (bsz / 64))) with (pos / bsz * bsz) in E2 by nia.
    replace (pos / bsz * bsz + (pos mod bsz + 1)) with (pos + 1) in E2 by nia.
    pose proof (cntl_mono B (pos / bsz * bsz) (pos + 1)). nia.
  - unfold popcountBlock in E2. destruct (Nat.eqb_spec (pos mod bsz + 1) 0); [lia|]. apply bindI in E2 as (a & _ & E2). apply bindI in E2 as (b & E2 & _).
    now apply idx_lt in E2.
Qed.
Lemma cntl_top B n : cntl B n <= cntl B (length B).
Proof. destruct (Nat.le_ge_cases n (length B)); [now apply cntl_mono|]. rewrite cntl_all; auto. Qed.

Definition rvlim (bsz : nat) (v : rankVector) : Prop := exists B, rv_rep bsz v B /\ lim (cntl B (length B)).
Lemma rank_lim bsz v pos r : 0 < bsz -> bsz mod 64 = 0 -> rvlim bsz v -> rank_at bsz v pos = Ok r -> rank_at32 bsz v pos = Ok r /\ lim r.
Proof.
  intros H0 Hm (B & R & L) E. pose proof (rank_count _ _ _ _ _ H0 Hm R E) as X. pose proof (cntl_top B (pos + 1)) as T.
  assert (lim r) by (subst r; fit). split; auto. apply rank32; auto. fit.
Qed.
Lemma rankD v pos r : rvlim rankDenseBlockSize v -> rankDense v pos = Ok r -> rank_at32 rankDenseBlockSize v pos = Ok r /\ lim r.
Proof. apply rank_lim; [unfold rankDenseBlockSize; lia|reflexivity]. Qed.
Lemma rankS v pos r : rvlim rankSparseBlockSize v -> rankSparse v pos = Ok r -> rank_at32 rankSparseBlockSize v pos = Ok r /\ lim r.
Proof. apply rank_lim; [unfold rankSparseBlockSize; lia|reflexivity]. Qed.
Lemma isSet_bit bsz v B pos b : rv_rep bsz v B -> rv_isSet v pos = Ok b -> b = nth pos B false.
Proof.
  intros ((_ & _ & R) & _) H. unfold rv_isSet, bv_isSet in H. assert (L : pos < 64 * length (bv_bits (rv_bv v))).
  { unfold readBit in H. apply bindI in H as (w & E & _). apply div64_lt. now apply idx_lt in E. }
  rewrite readBit_spec in H by auto. apply OkI in H. rewrite <- H. apply (proj2 R).
Qed.
Lemma isSet_lt v pos b : rv_isSet v pos = Ok b -> pos < 64 * length (bv_bits (rv_bv v)).
Proof. unfold rv_isSet, bv_isSet, readBit. intros H. apply bindI in H as (w & E & _). apply div64_lt. now apply idx_lt in E. Qed.

(** Prefixes. *)
Definition pvlim (v : prefixVec) : Prop := rvlim rankSparseBlockSize (pv_has v) /\ fits32 (length (pv_data v)).
Lemma getPrefix32_ok v n p : pvlim v -> getPrefix v n = Ok p -> getPrefix32 v n = Ok p.
Proof.
  intros (RL & F) H. unfold getPrefix, getPrefix32 in *. apply bindI in H as (b & E & H). rewrite E. cbn [bind]. destruct b; cbn [negb] in *; auto.
  apply bindI in H as (r & E2 & H). destruct (rankS _ _ _ RL E2) as (E3 & L). rewrite E3. cbn [bind].
  assert (P : 1 <= r).
  { destruct RL as (B & R & _). apply (isSet_bit _ _ _ _ _ R) in E. apply (rank_count rankSparseBlockSize _ _ _ _ (Nat.lt_0_succ 511) eq_refl R) in E2.
    subst r. rewrite Nat.add_1_r. unfold cntl. cbn [cnt]. rewrite <- E. cbn iota. lia. }
  rewrite (minus32_small r 1), (add32_small (r - 1) 1), !mul32_small by fit.
  apply bindI in H as (so & -> & H). apply bindI in H as (st & E4 & H). cbn [bind]. rewrite E4. cbn [bind].
  rewrite (w32_small (length (pv_data v))) by auto. exact H.
Qed.
Lemma checkPrefix32_ok v key d n x : pvlim v -> fits32 (length key) -> checkPrefix v key d n = Ok x -> d <= length key ->
  checkPrefix32 v key d n = Ok x /\ d + fst x <= length key.
Proof.
  intros P F H D. unfold checkPrefix, checkPrefix32 in *. apply bindI in H as (p & E & H). rewrite (getPrefix32_ok _ _ _ P E). cbn [bind].
  destruct (Nat.eqb _ 0); [apply OkI in H; subst x; cbn [fst]; split; auto; lia|].
  destruct (Nat.ltb_spec (length key) (d + length p)); [apply OkI in H; subst x; cbn [fst]; split; auto; lia|].
  rewrite (w32_small (length p)), add32_small by fit. apply bindI in H as (k & E2 & H). rewrite E2. cbn [bind].
  destruct (beqb k p); apply OkI in H; subst x; cbn [fst]; split; auto; lia.
Qed.

(** Suffixes. *)
Definition shortkey (key : bytes) : Prop := (N.of_nat (length key) < 536870912)%N.
Definition xvlim (v : suffixVector) : Prop := xv_hashLen v + xv_realLen v <= 64.
Section Suffix.
Variable fp : bytes -> N.
Lemma constructReal32 key lvl rl : shortkey key -> lvl <= length key + 1 -> rl <= 64 -> constructRealSuffix32 key lvl rl = constructRealSuffix key lvl rl.
Proof.
  intros K L R. unfold constructRealSuffix32, constructRealSuffix. unfold shortkey in K. rewrite w32_small by fit. rewrite mul32_small by fit.
  assert (rl / 8 <= rl) by (apply Nat.div_le_upper_bound; lia). rewrite add32_small by fit. reflexivity.
Qed.
Lemma construct32 key lvl t rl hl : shortkey key -> lvl <= length key + 1 -> rl <= 64 -> constructSuffix32 fp key lvl t rl hl = constructSuffix fp key lvl t rl hl.
Proof.
  intros K L R. unfold constructSuffix32, constructSuffix, constructMixedSuffix32, constructMixedSuffix. destruct t; auto; now rewrite constructReal32.
Qed.
Lemma read32 v i : xvlim v -> lim2 i -> suffix_read32 v i = suffix_read v i.
Proof.
  intros X L. unfold suffix_read32, suffix_read, xv_suffixLen32, xv_suffixLen. unfold xvlim in X. rewrite (add32_small (xv_hashLen v)) by fit.
  assert (i * (xv_hashLen v + xv_realLen v) <= i * 64) by nia. rewrite mul32_small by fit.
  set (o := (i * _) mod 64). assert (o < 64) by (apply Nat.mod_upper_bound; lia). rewrite add32_small by fit.
  destruct (idx _ _) as [w| |]; cbn [bind]; auto. destruct (Nat.ltb_spec 64 (o + (xv_hashLen v + xv_realLen v))); auto. rewrite minus32_small by fit. reflexivity.
Qed.
Lemma checkEquality32_ok v i key lvl : xvlim v -> lim2 i -> shortkey key -> lvl <= length key + 1 ->
  checkEquality32 fp v i key lvl = checkEquality fp v i key lvl.
Proof.
  intros X L K LV. unfold checkEquality32, checkEquality. destruct (suffixType_eqb _ _); auto. rewrite read32 by auto.
  unfold xv_suffixLen32, xv_suffixLen. unfold xvlim in X. rewrite (add32_small (xv_hashLen v)) by fit.
  assert (i * (xv_hashLen v + xv_realLen v) <= i * 64) by nia. rewrite mul32_small by fit.
  rewrite construct32 by (auto; lia). unfold shortkey in K. rewrite w32_small, mul32_small by fit. reflexivity.
Qed.
Definition read_at32 (vv : valueVector) (x : option nat) : res (option bytes) :=
  match x with Some q => v <- valueVector_get32 vv q ;; Ok (Some v) | None => Ok None end.
Lemma check_value32_pos v vv i key lvl x : xvlim v -> lim2 i -> shortkey key -> lvl <= length key + 1 ->
  check_pos fp v i key lvl = Ok x -> check_value32 fp v vv i key lvl = read_at32 vv x.
Proof.
  intros X L K LV H. unfold check_value32, check_pos in *. rewrite checkEquality32_ok by auto. apply bindI in H as (b & -> & H). apply OkI in H. subst x.
  cbn [bind]. now destruct b.
Qed.
End Suffix.

(** Select: the result is a position in the vector. *)
Lemma sel_loop_inv bs : forall fuel wo w rl wo' w' rl', sel_loop fuel bs wo w (pop w) rl = Ok (wo', w', rl') -> 1 <= rl ->
  1 <= rl' <= pop w' /\ ((wo' = wo /\ w' = w) \/ (wo' < length bs /\ w' = nth wo' bs 0%N)).
Proof.
  induction fuel as [|fuel IH]; intros wo w rl wo' w' rl' H L; cbn [sel_loop] in H; (destruct (Nat.ltb_spec (pop w) rl); [|apply OkI in H; inversion H; subst; split; [lia|auto]]).
  - discriminate.
  - apply bindI in H as (x & E & H). pose proof (idx_lt _ _ _ E) as LT. rewrite idx_nth in E by auto. apply OkI in E. subst x.
    apply IH in H as (H1 & [[-> ->]|H2]); [|lia|lia]; split; auto.
Qed.
Lemma select_lt v B k p : sv_rep v B -> 0 < length B -> select v k = Ok p -> p < length B.
Proof.
  intros ((N1 & N2 & R) & _ & _ & L0 & LU) NE H. unfold select in H. destruct (_ && _); [discriminate|]. set (rl := if Nat.eqb (k / 64) 0 then _ else _) in H.
  apply bindI in H as (pos & E & H). apply idx_Ok in E.
  assert (PL : pos < length B).
  { destruct (Nat.eq_dec (k / 64) 0) as [Z|Z]; [rewrite Z, L0 in E; congruence|]. apply (LU (k / 64)); auto. lia. }
  destruct (Nat.eqb_spec rl 0); [apply OkI in H; now subst|].
  destruct (if Nat.eqb (pos mod 64) 63 then _ else _) as (wo & bo) eqn:EP. 
  apply bindI in H as (w & Ew & H). pose proof (idx_lt _ _ _ Ew) as WL. rewrite idx_nth in Ew by auto. apply OkI in Ew.
  apply bindI in H as (((wo' & w') & rl') & EL & H). apply bindI in H as (q & EQ & H). apply OkI in H.
  apply sel_loop_inv in EL as (RL & C); [|lia].
  assert (BO : bo < 64).
  { pose proof (Nat.mod_upper_bound pos 64 ltac:(lia)). apply (f_equal snd) in EP. cbn [snd] in EP. destruct (Nat.eqb_spec (pos mod 64) 63); cbn [snd] in EP; lia. }
  assert (W64 : (w' < two64)%N).
  { destruct C as [[_ ->]|[_ ->]]; [apply shl64_lt|apply words_ok_nth, R]. }
  destruct (select64_spec w' rl' W64 RL) as (q' & E2 & Q1 & Q2 & _). rewrite E2 in EQ. apply OkI in EQ. subst q'.
  assert (T : tb (nth wo' (bv_bits (sv_bv v)) 0%N) q = true).
  { destruct C as [[-> ->]|[_ ->]]; auto. rewrite tb_shl_shr in Q2 by auto. apply andb_prop in Q2 as [_ Q2]. now subst w. }
  rewrite (rep_word_tb _ B wo' q R Q1) in T. apply nth_true_lt in T. lia.
Qed.
Lemma select32_ok v B k p : sv_rep v B -> 0 < length B -> lim (length B) -> select v k = Ok p -> select32 v k = Ok p.
Proof.
  intros R NE L H. pose proof (select_lt _ _ _ _ R NE H) as PL. unfold select, select32 in *. destruct (_ && _); [discriminate|].
  set (rl := if Nat.eqb (k / 64) 0 then _ else _) in *. apply bindI in H as (pos & E & H). rewrite E. cbn [bind].
  destruct (Nat.eqb rl 0); auto. destruct (if Nat.eqb (pos mod 64) 63 then _ else _) as (wo & bo).
  apply bindI in H as (w & Ew & H). rewrite Ew. cbn [bind]. apply bindI in H as (((wo' & w') & rl') & EL & H). rewrite EL. cbn [bind].
  apply bindI in H as (q & EQ & H). rewrite EQ. cbn [bind]. apply OkI in H. subst p. rewrite mul32_small, add32_small by fit. reflexivity.
Qed.

(** The distance to the next set bit. *)
Lemma ctz_le w : (w < two64)%N -> ctz64 w <= 64.
Proof.
  intros H. destruct (N.eq_dec w 0) as [->|Z]; [cbn; lia|]. destruct (ctz64_spec w Z) as (T & _).
  destruct (Nat.le_gt_cases (ctz64 w) 64) as [|G]; auto. rewrite (tb_high w 64) in T; [discriminate|exact H|lia].
Qed.
Lemma next32 v B : bv_rep v B -> lim (length B) -> forall todo wo d r, next_loop todo v wo d = Ok r -> 64 <= d -> wo + todo <= numWords (length B) -> d <= 64 * wo + 65 ->
  next_loop32 todo v wo d = Ok r /\ r <= 64 * (wo + todo) + 130.
Proof.
  intros (R1 & R2 & R3) L. pose proof (numWords_bound (length B)) as (_ & NB). induction todo as [|todo IH]; intros wo d r H D W DW; cbn [next_loop next_loop32] in *.
  - apply OkI in H. subst r. rewrite minus32_small by fit. split; auto. destruct (_ && _); lia.
  - apply bindI in H as (w & E & H). rewrite E. cbn [bind]. pose proof (idx_lt _ _ _ E) as WL. rewrite idx_nth in E by auto. apply OkI in E.
    assert (CT : ctz64 w <= 64) by (apply ctz_le; subst w; apply words_ok_nth, R3).
    rewrite !add32_small by fit. destruct (0 <? w)%N.
    + apply OkI in H. subst r. split; auto. lia.
    + apply IH in H; [|lia|lia|lia]. destruct H as (-> & H). split; auto. lia.
Qed.
Lemma distance32 v B pos d : bv_rep v B -> lim (length B) -> pos < length B -> distanceToNextSetBit v pos = Ok d ->
  distanceToNextSetBit32 v pos = Ok d /\ lim2 d.
Proof.
  intros R L P H. pose proof R as (R1 & R2 & R3). unfold distanceToNextSetBit, distanceToNextSetBit32 in *. pose proof (numWords_bound (length B)) as (NA & NB).
  rewrite (add32_small pos 1), (w32_small (length (bv_bits v))) by (rewrite ?R2; fit).
  destruct (Nat.leb_spec (length (bv_bits v)) ((pos + 1) / 64)) as [G|G]; [apply OkI in H; subst d; split; auto; fit|].
  apply bindI in H as (w & E & H). rewrite E. cbn [bind]. rewrite idx_nth in E by auto. apply OkI in E.
  pose proof (Nat.mod_upper_bound (pos + 1) 64 ltac:(lia)) as BO. set (bo := (pos + 1) mod 64) in *.
  assert (W : (w < two64)%N) by (subst w; apply words_ok_nth, R3).
  assert (CT : ctz64 (shr64 w (N.of_nat bo)) <= 64).
  { destruct (N.eq_dec (shr64 w (N.of_nat bo)) 0) as [->|Z]; [cbn; lia|]. destruct (ctz64_spec _ Z) as (T & _). rewrite tb_shr64 in T.
    destruct (Nat.le_gt_cases (ctz64 (shr64 w (N.of_nat bo))) 64) as [|GT]; auto. rewrite (tb_high w 64) in T; [discriminate|exact W|lia]. }
  rewrite (add32_small 1 (ctz64 _)) by fit. destruct (0 <? _)%N; [apply OkI in H; subst d; split; auto; fit|].
  destruct (Nat.eqb_spec ((pos + 1) / 64) (numWords (bv_numBits v) - 1)) as [Q|Q].
  - apply OkI in H. subst d. rewrite minus32_small by (rewrite R1; fit). split; auto. rewrite R1. fit.
  - rewrite add32_small by fit. rewrite R1 in *. rewrite R2 in G.
    destruct (numWords (length B) - 1 - (pos + 1) / 64) as [|t] eqn:ET; [lia|]. cbn [next_loop next_loop32] in *.
    apply bindI in H as (w2 & E2 & H). rewrite E2. cbn [bind]. pose proof (idx_lt _ _ _ E2) as WL. rewrite idx_nth in E2 by auto. apply OkI in E2.
    assert (CT2 : ctz64 w2 <= 64) by (apply ctz_le; subst w2; apply words_ok_nth, R3).
    rewrite !add32_small by fit. destruct (0 <? w2)%N; [apply OkI in H; subst d; split; auto; fit|].
    apply (next32 v B R L) in H as (-> & H); [|lia|lia|lia]. split; auto. fit.
Qed.

Lemma indexByte_lt l k r : indexByte l k = Some r -> r < length l.
Proof.
  revert r. induction l as [|x l IH]; intros r H; cbn [indexByte length] in *; [discriminate|]. destruct (Nat.eqb x k); [inversion H; lia|].
  destruct (indexByte l k) as [i|]; [|discriminate]. inversion H; subst. specialize (IH i eq_refl). lia.
Qed.
Lemma search32 labels k start size x : lim2 (length labels) -> start < length labels -> lim2 size -> label_search labels k start size = Ok x ->
  label_search32 labels k start size = Ok x.
Proof.
  intros L S Z H. unfold label_search, label_search32, skip_terminator in *. apply bindI in H as ((st & sz) & E & H).
  assert (E32 : (if Nat.ltb 1 size then l <- idx labels start ;; Ok (if Nat.eqb l labelTerminator then (add32 start 1, size - 1) else (start, size)) else Ok (start, size)) = Ok (st, sz)
      /\ st <= start + 1 /\ sz <= size).
  { destruct (Nat.ltb 1 size).
    - apply bindI in E as (l & -> & E). cbn [bind]. rewrite add32_small by fit. apply OkI in E. rewrite Nat.add_1_r. split; [now rewrite E|]. destruct (Nat.eqb l _); inversion E; lia.
    - split; auto. apply OkI in E. inversion E. lia. }
  destruct E32 as (-> & B1 & B2). cbn [bind]. rewrite add32_small, (w32_small (length labels)) by fit.
  apply bindI in H as (s & ES & H). rewrite ES. cbn [bind]. destruct (indexByte s k) as [r|] eqn:EI; auto.
  apply indexByte_lt in EI. unfold slice in ES. destruct (_ && _); [|discriminate]. apply OkI in ES. subst s.
  rewrite firstn_length, skipn_length in EI. rewrite w32_small, add32_small by fit. exact H.
Qed.

(* ------------------------------------------------------------------ *)
(** ** Get *)

Record ldlim (ld : loudsDense) : Prop := {
  dl_label : rvlim rankDenseBlockSize (ld_label ld);
  dl_words : lim2 (length (bv_bits (rv_bv (ld_label ld))));
  dl_hasc : rvlim rankDenseBlockSize (ld_hasChild ld);
  dl_isp : rvlim rankDenseBlockSize (ld_isPrefix ld);
  dl_suf : xvlim (ld_suffixes ld);
  dl_pre : pvlim (ld_prefix ld) }.

Record lslim (ls : loudsSparse) : Prop := {
  sl_hasc : rvlim rankSparseBlockSize (ls_hasChild ls);
  sl_louds : exists B, sv_rep (ls_louds ls) B /\ 0 < length B /\ lim (length B) /\ length B < length (ls_label ls);
  sl_label : lim2 (length (ls_label ls));
  sl_dn : lim (ls_denseNodeCount ls);
  sl_dc : lim2 (ls_denseChildCount ls);
  sl_suf : xvlim (ls_suffixes ls);
  sl_pre : pvlim (ls_prefix ls) }.

Section Get.
Variable fp : bytes -> N.

Lemma subchk a b x : sub_chk a b = Ok x -> b <= a /\ x = a - b.
Proof. unfold sub_chk. intros H. destruct (Nat.leb_spec b a); [|discriminate]. apply OkI in H. auto. Qed.

Lemma ld_suffixPos32_ok ld pos ip x : ldlim ld -> ld_suffixPos ld pos ip = Ok x -> ld_suffixPos32 ld pos ip = Ok x /\ lim2 x.
Proof.
  intros [L1 L2 L3 L4 L5 L6] H. unfold ld_suffixPos, ld_suffixPos32 in *.
  apply bindI in H as (rl & E1 & H). destruct (rankD _ _ _ L1 E1) as (-> & B1). cbn [bind].
  apply bindI in H as (rh & E2 & H). destruct (rankD _ _ _ L3 E2) as (-> & B2). cbn [bind].
  apply bindI in H as (rp & E3 & H). destruct (rankD _ _ _ L4 E3) as (-> & B3). cbn [bind].
  apply bindI in H as (sp & E4 & H). apply subchk in E4 as (C & ->). rewrite minus32_order by fit.
  destruct ip; [|apply OkI in H; subst x; split; auto; fit].
  apply bindI in H as (l & -> & H). cbn [bind]. apply bindI in H as (h & E5 & H). destruct l; cbn [andb] in H.
  - rewrite E5. cbn [bind]. destruct h; cbn [negb] in *.
    + apply OkI in H. subst x. split; auto. fit.
    + apply subchk in H as (C2 & ->). rewrite minus32_small by fit. split; auto. fit.
  - apply OkI in H. subst x. split; auto. fit.
Qed.

Lemma ld_get32_find ld key : ldlim ld -> shortkey key -> forall todo n d x, d <= length key -> ld_find_loop fp todo ld key n d = Ok x ->
  ld_get_loop32 fp todo ld key n d = match x with DFound p => v <- read_at32 (ld_values ld) p ;; Ok (DAnswer v) | DGoOn a b => Ok (DCont a b) end /\
  match x with DGoOn a b => (todo = 0 /\ a = n \/ lim a) /\ b <= length key | _ => True end.
Proof.
  intros L K. assert (F : fits32 (length key)) by (unfold shortkey in K; fit).
  induction todo as [|todo IH]; intros n d x D H; cbn [ld_find_loop ld_get_loop32] in *; [apply OkI in H; subst x; auto|].
  apply bindI in H as ((pl & ok) & E & H). apply (checkPrefix32_ok _ _ _ _ _ (dl_pre _ L) F) in E as (-> & DP); [|auto]. cbn [bind fst] in *.
  destruct ok; cbn [negb] in *; [|apply OkI in H; subst x; split; auto].
  rewrite (add32_small d pl), (w32_small (length key)) by fit. destruct (Nat.leb_spec (length key) (d + pl)).
  - apply bindI in H as (p & -> & H). cbn [bind]. destruct p; [|apply OkI in H; subst x; split; auto].
    apply bindI in H as (vp & E2 & H). assert (FP : fits32 (n * 256)).
    { unfold ld_suffixPos in E2. apply bindI in E2 as (rl & E2 & _). unfold rankDense, rank_at in E2. apply bindI in E2 as (z & _ & E2). apply bindI in E2 as (z2 & E2 & _).
      unfold popcountBlock in E2. destruct (Nat.eqb_spec (n * 256 mod rankDenseBlockSize + 1) 0); [lia|]. apply bindI in E2 as (a & _ & E2). apply bindI in E2 as (b & E2 & _).
      apply idx_lt in E2. pose proof (dl_words _ L) as DW. change rankDenseBlockSize with 64 in *. change (64 / 64) with 1 in E2.
      assert (n * 256 / 64 < length (bv_bits (rv_bv (ld_label ld)))) as Q by lia. apply div64_lt in Q. fit. }
    rewrite mul32_small by auto. apply (ld_suffixPos32_ok _ _ _ _ L) in E2 as (-> & LV). cbn [bind].
    apply bindI in H as (v & E3 & H). apply OkI in H. subst x. split; auto. rewrite (add32_small (d + pl) 1) by (unfold shortkey in K; fit).
    now rewrite (check_value32_pos fp (ld_suffixes ld) (ld_values ld) vp key (d + pl + 1) v (dl_suf _ L) LV K ltac:(lia) E3).
  - apply bindI in H as (kb & -> & H). cbn [bind]. apply bindI in H as (l & E2 & H).
    assert (FP : fits32 (n * 256 + kb)). { apply isSet_lt in E2. pose proof (dl_words _ L). fit. }
    rewrite (mul32_small n 256), (add32_small (n * 256) kb) by fit. rewrite E2. cbn [bind].
    destruct l; cbn [negb] in *; [|apply OkI in H; subst x; split; auto]. apply bindI in H as (h & -> & H). cbn [bind].
    rewrite (add32_small (d + pl) 1) by (unfold shortkey in K; fit). destruct h; cbn [negb] in *.
    + apply bindI in H as (n' & E3 & H). destruct (rankD _ _ _ (dl_hasc _ L) E3) as (-> & LN). cbn [bind].
      apply IH in H as (-> & H2); [|lia]. split; auto. destruct x as [p|a b]; auto. destruct H2 as ([(_ & ->)|H2] & H3); auto.
    + apply bindI in H as (vp & E3 & H). apply (ld_suffixPos32_ok _ _ _ _ L) in E3 as (-> & LV). cbn [bind].
      apply bindI in H as (v & E4 & H). apply OkI in H. subst x. split; auto.
      now rewrite (check_value32_pos fp (ld_suffixes ld) (ld_values ld) vp key (d + pl + 1) v (dl_suf _ L) LV K ltac:(lia) E4).
Qed.

Lemma ls_suffixPos32_ok ls pos x : lslim ls -> pos < length (ls_label ls) -> ls_suffixPos ls pos = Ok x -> ls_suffixPos32 ls pos = Ok x /\ lim2 x.
Proof.
  intros L P H. unfold ls_suffixPos, ls_suffixPos32 in *. apply bindI in H as (r & E & H). destruct (rankS _ _ _ (sl_hasc _ L) E) as (-> & B). cbn [bind].
  apply subchk in H as (C & ->). pose proof (sl_label _ L). rewrite minus32_small by fit. split; auto. fit.
Qed.
Lemma ls_end32 ls key pos d x : lslim ls -> shortkey key -> pos < length (ls_label ls) -> d <= length key ->
  ls_find_end fp ls key pos d = Ok x -> ls_get_end32 fp ls key pos d = read_at32 (ls_values ls) x.
Proof.
  intros L K P D H. unfold ls_find_end, ls_get_end32 in *. apply bindI in H as (l & -> & H). cbn [bind]. apply bindI in H as (h & -> & H). cbn [bind].
  destruct h; [apply OkI in H; now subst x|]. apply bindI in H as (vp & E & H). apply (ls_suffixPos32_ok _ _ _ L P) in E as (-> & LV). cbn [bind].
  rewrite (add32_small d 1) by (unfold shortkey in K; fit).
  now rewrite (check_value32_pos fp (ls_suffixes ls) (ls_values ls) vp key (d + 1) x (sl_suf _ L) LV K ltac:(lia) H).
Qed.
Lemma firstLabel32 ls n p : lslim ls -> (N.of_nat n <= 67108864)%N -> ls_firstLabelPos ls n = Ok p ->
  ls_firstLabelPos32 ls n = Ok p /\ exists B, sv_rep (ls_louds ls) B /\ lim (length B) /\ p < length B /\ length B < length (ls_label ls).
Proof.
  intros L Hn H. unfold ls_firstLabelPos, ls_firstLabelPos32 in *. apply bindI in H as (k & E & H). apply subchk in E as (C & ->).
  destruct (sl_louds _ L) as (B & SR & NE & LB & LL). rewrite add32_small, minus32_small by (rewrite ?add32_small; fit). split.
  - eapply select32_ok; eauto.
  - exists B. split; auto. split; auto. split; [|lia]. eapply select_lt; eauto.
Qed.
Lemma label_search_lt labels k start size p : label_search labels k start size = Ok (p, true) -> p < length labels.
Proof.
  unfold label_search. intros H. apply bindI in H as ((st & sz) & _ & H). apply bindI in H as (s & E & H). destruct (indexByte s k) as [r|] eqn:EI; apply OkI in H; inversion H; subst.
  apply indexByte_lt in EI. unfold slice in E. destruct (_ && _); [|discriminate]. apply OkI in E. subst s. rewrite firstn_length, skipn_length in EI. lia.
Qed.

Lemma ls_get32_find ls key : lslim ls -> shortkey key -> forall fuel n pos d x, (N.of_nat n <= 67108864)%N ->
  (exists B, sv_rep (ls_louds ls) B /\ lim (length B) /\ pos < length B /\ length B < length (ls_label ls)) -> d <= length key ->
  ls_find_loop fp fuel ls key n pos d = Ok x -> ls_get_loop32 fp fuel ls key n pos d = read_at32 (ls_values ls) x.
Proof.
  intros L K. assert (F : fits32 (length key)) by (unfold shortkey in K; fit).
  induction fuel as [|fuel IH]; intros n pos d x Hn (B & SR & LB & PB & BL) D H; cbn [ls_find_loop ls_get_loop32] in *;
    rewrite (w32_small (length key)) by auto; (destruct (Nat.leb_spec (length key) d); [eapply ls_end32; eauto; lia|]); [discriminate|].
  apply bindI in H as (pid & E & H). apply subchk in E as (C & ->). rewrite minus32_small by fit.
  apply bindI in H as ((pl & ok) & E & H). apply (checkPrefix32_ok _ _ _ _ _ (sl_pre _ L) F) in E as (-> & DP); [|auto]. cbn [bind fst] in *.
  destruct ok; cbn [negb] in *; [|apply OkI in H; now subst x].
  rewrite (add32_small d pl) by fit. destruct (Nat.leb_spec (length key) (d + pl)); [eapply ls_end32; eauto; lia|].
  apply bindI in H as (kb & -> & H). cbn [bind]. apply bindI in H as (sz & E & H). unfold ls_nodeSize in E.
  apply (distance32 _ B) in E as (-> & LZ); [|apply SR|auto|auto]. cbn [bind].
  apply bindI in H as ((p2 & ok) & E & H). assert (PL2 : pos < length (ls_label ls)) by lia. pose proof (search32 _ _ _ _ _ (sl_label _ L) PL2 LZ E) as ES. rewrite ES. cbn [bind].
  destruct ok; cbn [negb] in *; [|apply OkI in H; now subst x]. apply label_search_lt in E.
  apply bindI in H as (h & -> & H). cbn [bind]. rewrite (add32_small (d + pl) 1) by fit. destruct h; cbn [negb] in *.
  - apply bindI in H as (n' & E2 & H). unfold ls_childNodeID, ls_childNodeID32 in *. apply bindI in E2 as (r & E2 & E3). apply OkI in E3.
    destruct (rankS _ _ _ (sl_hasc _ L) E2) as (-> & LR). cbn [bind]. pose proof (sl_dc _ L). rewrite add32_small by fit.
    apply bindI in H as (p3 & E4 & H). subst n'. apply (firstLabel32 _ _ _ L) in E4 as (-> & EB); [|fit]. cbn [bind].
    apply IH; auto; [fit|lia].
  - apply bindI in H as (vp & E2 & H). apply (ls_suffixPos32_ok _ _ _ L E) in E2 as (-> & LV). cbn [bind].
    now rewrite (check_value32_pos fp (ls_suffixes ls) (ls_values ls) vp key (d + pl + 1) x (sl_suf _ L) LV K ltac:(lia) H).
Qed.

(** Get with uint32 counters finds the same position; only the offset of the value may differ. *)
Theorem get32_find s key x : ldlim (s_ld s) -> lslim (s_ls s) -> shortkey key -> surf_find fp s key = Ok x ->
  surf_get32 fp s key = match x with Some (p, pos) => v <- valueVector_get32 (part_values s p) pos ;; Ok (Some v) | None => Ok None end.
Proof.
  intros L1 L2 K H. unfold surf_find, surf_get32 in *. apply bindI in H as (y & E & H). apply (ld_get32_find _ _ L1 K) in E as (-> & C); [|lia].
  destruct y as [[p|]|n d]; cbn [bind read_at32 option_map] in *.
  - apply OkI in H. subst x. cbn [part_values]. destruct (valueVector_get32 _ _); reflexivity.
  - apply OkI in H. now subst x.
  - destruct C as (C & D). apply bindI in H as (pos & E & H).
    assert (Hn : (N.of_nat n <= 67108864)%N) by (destruct C as [(_ & ->)|C]; [cbn; lia|fit]).
    apply (firstLabel32 _ _ _ L2 Hn) in E as (-> & EB). cbn [bind]. apply bindI in H as (v & E & H). apply OkI in H. subst x.
    rewrite (ls_get32_find _ _ L2 K _ _ _ _ _ Hn EB D E). destruct v; reflexivity.
Qed.
End Get.
