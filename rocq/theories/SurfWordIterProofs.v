(** * SurfWordIterProofs: where no counter reaches 2^32, the iterators with uint32 arithmetic do
    what the iterators of SurfIter do. *)
From Verif Require Import Base BitsModel BitsFacts VecModel SurfModel SurfIter SurfWord SurfWordIter SurfIterDense VecProofs VecProofs2 SurfSize SurfAliasProofs SurfWordProofs SurfWordTop.

Definition lim31 (n : nat) : Prop := (N.of_nat n <= 2147483648)%N.
Ltac fit31 := unfold lim31 in *; fit.

Ltac Zify.zify_post_hook ::= Z.div_mod_to_equations.
Lemma mod64_words n : n mod 64 = 0 -> 64 * numWords n = n.
Proof. intros H. unfold numWords. rewrite H. cbn [Nat.eqb]. lia. Qed.
Lemma off64 a n : 64 * n = a -> forall p, p / 64 < n -> 64 * (p / 64) + p mod 64 = p /\ p < a /\ p mod 64 < 64.
Proof. intros. lia. Qed.
Ltac Zify.zify_post_hook ::= idtac.

(* ------------------------------------------------------------------ *)
(** ** Vectors *)

Lemma ctz_lt w n : (w < two64)%N -> (0 <? shr64 w (N.of_nat n))%N = true -> ctz64 (shr64 w (N.of_nat n)) + n < 64.
Proof.
  intros W P. apply N.ltb_lt in P. destruct (ctz64_spec (shr64 w (N.of_nat n)) ltac:(lia)) as (T & _). rewrite tb_shr64 in T.
  destruct (Nat.lt_ge_cases (ctz64 (shr64 w (N.of_nat n)) + n) 64) as [|G]; auto. rewrite (tb_high w 64) in T; [discriminate|exact W|lia].
Qed.
Lemma ctz_lt0 w : (w < two64)%N -> (0 <? w)%N = true -> ctz64 w < 64.
Proof.
  intros W P. apply N.ltb_lt in P. destruct (ctz64_spec w ltac:(lia)) as (T & _).
  destruct (Nat.lt_ge_cases (ctz64 w) 64) as [|G]; auto. rewrite (tb_high w 64) in T; [discriminate|exact W|lia].
Qed.

Lemma nextD v B pos : bv_rep v B -> length B mod 64 = 0 -> lim31 (length B) -> forall todo wo d r, next_loop todo v wo d = Ok r -> pos + d = 64 * (wo + 1) ->
  wo + todo + 1 <= numWords (length B) -> next_loop32 todo v wo d = Ok r /\ pos + r <= length B.
Proof.
  intros (R1 & R2 & R3) M L. pose proof (mod64_words _ M) as NW. induction todo as [|todo IH]; intros wo d r H D W; cbn [next_loop next_loop32] in *.
  - apply OkI in H. subst r. rewrite R1, M. cbn [Nat.eqb negb]. rewrite andb_false_r. split; auto. lia.
  - apply bindI in H as (w & E & H). rewrite E. cbn [bind]. pose proof (idx_lt _ _ _ E) as WL. rewrite idx_nth in E by auto. apply OkI in E.
    assert (W64 : (w < two64)%N) by (subst w; apply words_ok_nth, R3).
    destruct (0 <? w)%N eqn:P.
    + apply OkI in H. subst r. pose proof (ctz_lt0 w W64 P). rewrite add32_small by fit31. split; auto. lia.
    + rewrite add32_small by fit31. apply IH in H; [|lia|lia]. exact H.
Qed.
Lemma distanceD v B pos d : bv_rep v B -> length B mod 64 = 0 -> lim31 (length B) -> lim31 pos -> distanceToNextSetBit v pos = Ok d ->
  distanceToNextSetBit32 v pos = Ok d /\ lim31 (pos + d).
Proof.
  intros R M L P H. pose proof R as (R1 & R2 & R3). unfold distanceToNextSetBit, distanceToNextSetBit32 in *. pose proof (mod64_words _ M) as NW.
  rewrite (add32_small pos 1), (w32_small (length (bv_bits v))) by (rewrite ?R2; fit31).
  destruct (Nat.leb_spec (length (bv_bits v)) ((pos + 1) / 64)) as [G|G]; [apply OkI in H; subst d; split; auto; fit31|].
  rewrite R2 in G. destruct (off64 _ _ NW _ G) as (D1 & D2 & BO).
  apply bindI in H as (w & E & H). rewrite E. cbn [bind]. rewrite idx_nth in E by (rewrite R2; auto). apply OkI in E.
  set (bo := (pos + 1) mod 64) in *.
  assert (W : (w < two64)%N) by (subst w; apply words_ok_nth, R3).
  destruct (0 <? _)%N eqn:PS.
  { apply OkI in H. subst d. pose proof (ctz_lt w bo W PS). rewrite add32_small by fit31. split; auto. fit31. }
  destruct (Nat.eqb_spec ((pos + 1) / 64) (numWords (bv_numBits v) - 1)) as [Q|Q].
  - apply OkI in H. subst d. rewrite R1, minus32_small by fit31. split; auto. fit31.
  - rewrite add32_small by fit31. rewrite R1 in *. apply (nextD v B pos R M L) in H; [|lia|lia]. destruct H as (-> & H). split; auto. fit31.
Qed.

Lemma prevD v : words_ok (bv_bits v) -> forall wo d r, prev_loop wo v d = Ok r -> fits32 (d + 64 * wo + 64) -> prev_loop32 wo v d = Ok r /\ fits32 r.
Proof.
  intros WO. induction wo as [|wo IH]; intros d r H L; cbn [prev_loop prev_loop32] in *.
  - apply OkI in H. subst r. split; auto. fit31.
  - apply bindI in H as (w & E & H). rewrite E. cbn [bind]. pose proof (idx_lt _ _ _ E) as WL. rewrite idx_nth in E by auto. apply OkI in E.
    assert (W64 : (w < two64)%N) by (subst w; apply words_ok_nth, WO). destruct (0 <? w)%N eqn:P.
    + apply OkI in H. subst r. apply N.ltb_lt in P. destruct (clz64_spec w W64 ltac:(lia)) as (C & _). rewrite add32_small by fit31. split; auto. fit31.
    + rewrite add32_small by fit31. apply IH; auto. fit31.
Qed.
Lemma distanceP v pos d : words_ok (bv_bits v) -> lim31 pos -> distanceToPrevSetBit v pos = Ok d -> distanceToPrevSetBit32 v pos = Ok d /\ fits32 d.
Proof.
  intros WO P H. unfold distanceToPrevSetBit, distanceToPrevSetBit32 in *. destruct (Nat.eqb_spec pos 0); [apply OkI in H; subst d; split; auto; fit31|].
  rewrite minus32_small by fit31. apply bindI in H as (w & E & H). rewrite E. cbn [bind]. pose proof (idx_lt _ _ _ E) as WL. rewrite idx_nth in E by auto. apply OkI in E.
  assert (W64 : (w < two64)%N) by (subst w; apply words_ok_nth, WO).
  destruct (off64 _ (length (bv_bits v)) eq_refl _ WL) as (D1 & D2 & BO). set (bo := (pos - 1) mod 64) in *. set (wo := (pos - 1) / 64) in *.
  destruct (0 <? _)%N eqn:PS.
  - apply OkI in H. subst d. apply N.ltb_lt in PS.
    destruct (clz64_spec (shl64 w (N.of_nat (64 - 1 - bo))) ltac:(apply shl64_lt) ltac:(lia)) as (C & _). rewrite add32_small by fit31. split; auto. fit31.
  - rewrite add32_small by fit31. apply prevD; auto. fit31.
Qed.

Lemma sort_ext f g : forall fuel i j, (forall k, k < j -> f k = g k) -> sort_search fuel f i j = sort_search fuel g i j.
Proof.
  induction fuel as [|fuel IH]; intros i j H; cbn [sort_search]; destruct (Nat.ltb_spec i j); auto.
  assert (HH : (i + j) / 2 < j) by (apply Nat.div_lt_upper_bound; lia).
  rewrite (H _ HH). destruct (g ((i + j) / 2)) as [b| |]; cbn [bind]; auto. destruct b; apply IH; intros k Hk; apply H; lia.
Qed.
Lemma sort_le f : forall fuel i j r, sort_search fuel f i j = Ok r -> i <= j -> r <= j.
Proof.
  induction fuel as [|fuel IH]; intros i j r H L; cbn [sort_search] in H; destruct (Nat.ltb_spec i j); try discriminate; try (apply OkI in H; lia).
  assert (HH : (i + j) / 2 < j) by (apply Nat.div_lt_upper_bound; lia). assert (HI : i <= (i + j) / 2) by (apply Nat.div_le_lower_bound; lia).
  apply bindI in H as (b & _ & H). destruct b; apply IH in H; lia.
Qed.
Lemma searchgt32 labels k pos size x : lim2 (length labels) -> pos <= length labels + 1 -> lim2 size -> 1 <= pos + size ->
  label_search_gt labels k pos size = Ok x -> label_search_gt32 labels k pos size = Ok x.
Proof.
  intros L S Z NZ H. unfold label_search_gt, label_search_gt32, skip_terminator in *. apply bindI in H as ((st & sz) & E & H).
  assert (E32 : (if Nat.ltb 1 size then l <- idx labels pos ;; Ok (if Nat.eqb l labelTerminator then (add32 pos 1, size - 1) else (pos, size)) else Ok (pos, size)) = Ok (st, sz)
      /\ st <= pos + 1 /\ sz <= size /\ 1 <= st + sz).
  { destruct (Nat.ltb 1 size).
    - apply bindI in E as (l & -> & E). cbn [bind]. rewrite add32_small by fit. apply OkI in E. rewrite Nat.add_1_r. split; [now rewrite E|]. destruct (Nat.eqb l _); inversion E; lia.
    - split; auto. apply OkI in E. inversion E. lia. }
  destruct E32 as (-> & B1 & B2 & B3). cbn [bind]. apply bindI in H as (r & ER & H).
  rewrite (sort_ext _ (fun i => l <- idx labels (st + i) ;; Ok (Nat.ltb k l))).
  2:{ intros i Hi. rewrite w32_small, add32_small by fit. reflexivity. }
  rewrite ER. cbn [bind]. apply sort_le in ER; [|lia]. rewrite w32_small, add32_small by fit. destruct (Nat.eqb_spec r sz); auto. rewrite minus32_small by fit. exact H.
Qed.
Lemma compare32 v key i lvl : xvlim v -> lim2 i -> shortkey key -> lvl <= length key + 1 -> suffix_compare32 v key i lvl = suffix_compare v key i lvl.
Proof.
  intros X L K LV. unfold suffix_compare32, suffix_compare. rewrite read32 by auto. unfold xv_suffixLen32, xv_suffixLen. unfold xvlim in X.
  rewrite (add32_small (xv_hashLen v)) by fit. assert (i * (xv_hashLen v + xv_realLen v) <= i * 64) by nia. rewrite mul32_small by fit.
  rewrite (constructReal32 (fun _ => 0%N) key lvl (xv_realLen v) K LV) by (clear - X; lia). reflexivity.
Qed.

Lemma upd_inv {A} (l : list A) i x l' : upd l i x = Ok l' -> i < length l /\ l' = set_nth l i x.
Proof. unfold upd. intros H. destruct (Nat.ltb_spec i (length l)); [|discriminate]. apply OkI in H. auto. Qed.
Lemma set_nth_err {A} (l : list A) i x j y : i < length l -> nth_error (set_nth l i x) j = Some y -> (j = i /\ y = x) \/ nth_error l j = Some y.
Proof. intros L H. destruct (Nat.eq_dec j i) as [->|N]; [rewrite set_nth_same in H by auto; left; split; congruence|rewrite set_nth_other in H by auto; auto]. Qed.

Section Bounds.
Variables (K H : nat).
Hypothesis K1 : 1 <= K.
Hypothesis H1 : 1 <= H.
Hypothesis HK : fits32 ((H + 1) * K).

Definition below (l : list nat) : Prop := forall i x, nth_error l i = Some x -> x <= (i + 1) * K.
Lemma below_set l i x : below l -> i < length l -> x <= (i + 1) * K -> below (set_nth l i x).
Proof. intros B L X j y E. apply set_nth_err in E as [[-> ->]|E]; auto. Qed.
Lemma row_le i : i < H -> (i + 1) * K <= H * K.
Proof. intros. nia. Qed.
Lemma H_fits i : i <= H -> fits32 ((i + 1) * K).
Proof. intros L. eapply fits_le; [|exact HK]. nia. Qed.
Lemma H_lim i : i <= H -> fits32 (i + 1).
Proof. intros L. eapply fits_le; [|exact (H_fits i L)]. nia. Qed.

Lemma set_nth_all (P : nat -> Prop) l i x : Forall P l -> i < length l -> P x -> Forall P (set_nth l i x).
Proof.
  intros F L Px. apply Forall_forall. intros y Hy. apply In_nth_error in Hy as (j & Hj). apply set_nth_err in Hj as [[_ ->]|Hj]; auto.
  rewrite Forall_forall in F. apply F. eapply nth_error_In; eauto.
Qed.
Lemma idx_all (P : nat -> Prop) l i x : Forall P l -> idx l i = Ok x -> P x.
Proof. intros F E. apply idx_Ok in E. rewrite Forall_forall in F. apply F. eapply nth_error_In; eauto. Qed.

(* ------------------------------------------------------------------ *)
(** ** Dense levels *)

Record denlim (ld : loudsDense) : Prop := {
  el_lim : ldlim ld;
  el_lab : exists B, bv_rep (rv_bv (ld_label ld)) B /\ length B mod 64 = 0 /\ lim31 (length B);
  el_node : forall pos r, rankDense (ld_hasChild ld) pos = Ok r -> (N.of_nat r < 8388607)%N;
  el_pre : forall n p, getPrefix (ld_prefix ld) n = Ok p -> length p < K;
  el_h : ld_height ld <= H }.

Section Dense.
Variable ld : loudsDense.
Hypothesis L : denlim ld.

Record dinv (it : denseIter) : Prop := {
  di_len : length (d_pos it) <= ld_height ld;
  di_pos : Forall lim31 (d_pos it);
  di_plen : below (d_plen it);
  di_node : (N.of_nat (d_sendNode it) < 8388607)%N;
  di_depth : fits32 (d_sendDepth it + K) }.
(** Room for the key, at level [l]. *)
Definition dkey (it : denseIter) : Prop := length (d_key it) <= (d_level it + 1) * K.
Definition dok (it : denseIter) : Prop := dinv it /\ (d_valid it = true -> dkey it).

Lemma dinv_level it l : dinv it -> dinv (d_setLevel it l). Proof. intros [A B C D E]; constructor; auto. Qed.
Lemma dinv_flags it a b c d : dinv it -> dinv (d_setFlags it a b c d). Proof. intros [A B C D E]; constructor; auto. Qed.
Lemma dinv_at it b : dinv it -> dinv (d_setAtPrefix it b). Proof. intros [A B C D E]; constructor; auto. Qed.
Lemma dinv_key it k : dinv it -> dinv (d_setKey it k). Proof. intros [A B C D E]; constructor; auto. Qed.
Lemma dinv_reset it : dinv it -> dinv (d_reset it). Proof. intros [A B C D E]; constructor; auto. Qed.
Lemma dinv_send it n d : dinv it -> (N.of_nat n < 8388607)%N -> fits32 (d + K) -> dinv (d_setSend it n d). Proof. intros [A B C D E]; constructor; auto. Qed.

Lemma next_sim pos x : lim31 pos -> ld_nextPos ld pos = Ok x -> ld_nextPos32 ld pos = Ok x /\ lim31 x.
Proof.
  intros P E. destruct (el_lab _ L) as (B & R & M & LB). unfold ld_nextPos, ld_nextPos32 in *. apply bindI in E as (d & E & E2). apply OkI in E2. subst x.
  destruct (distanceD _ B _ _ R M LB P E) as (-> & F). cbn [bind]. rewrite add32_small by fit31. auto.
Qed.
Lemma prev_sim pos x : lim31 pos -> ld_prevPos ld pos = Ok x -> ld_prevPos32 ld pos = Ok x /\ match x with Some y => lim31 y | None => True end.
Proof.
  intros P E. destruct (el_lab _ L) as (B & R & M & LB). unfold ld_prevPos, ld_prevPos32 in *. apply bindI in E as (d & E & E2). apply OkI in E2. subst x.
  destruct (distanceP (rv_bv (ld_label ld)) pos d) as (-> & F); [apply R|exact P|exact E|]. cbn [bind].
  destruct (Nat.leb_spec pos d); [auto|]. rewrite minus32_small by fit31. split; auto. fit31.
Qed.
Lemma child_sim pos x : ld_childNodeID ld pos = Ok x -> ld_childNodeID32 ld pos = Ok x /\ (N.of_nat x < 8388607)%N.
Proof.
  intros E. unfold ld_childNodeID, ld_childNodeID32 in *. destruct (rankD _ _ _ (dl_hasc _ (el_lim _ L)) E) as (E2 & _). split; auto. eapply el_node; eauto.
Qed.
Lemma append_sim it pos it' : dinv it -> lim31 pos -> length (d_key it) <= d_level it * K -> d_append ld it pos = Ok it' ->
  d_append32 ld it pos = Ok it' /\ dinv it' /\ dkey it' /\ d_level it' = d_level it /\ d_level it < H.
Proof.
  intros I P KL E. unfold d_append, d_append32 in *. apply bindI in E as (p & E1 & E). pose proof (el_pre _ L _ _ E1) as PL.
  rewrite (getPrefix32_ok _ _ _ (dl_pre _ (el_lim _ L)) E1). cbn [bind].
  apply bindI in E as (ps & E2 & E). rewrite E2. cbn [bind]. apply bindI in E as (base & E3 & E). rewrite E3. cbn [bind]. apply bindI in E as (pl & E4 & E).
  apply upd_inv in E2 as (L2 & ->). pose proof (upd_inv _ _ _ _ E4) as (L4 & E5).
  assert (LV : d_level it < H) by (pose proof (di_len _ I); pose proof (el_h _ L); lia).
  assert (BB : base <= d_level it * K).
  { destruct (Nat.eqb_spec (d_level it) 0) as [Z|Z]; [apply OkI in E3; lia|]. apply idx_Ok in E3. apply (di_plen _ I) in E3. replace (d_level it - 1 + 1) with (d_level it) in E3 by lia. exact E3. }
  pose proof (H_fits (d_level it) ltac:(lia)) as F1.
  assert (F2 : fits32 (length p + 1 + base)) by (eapply fits_le; [|exact F1]; lia).
  rewrite (w32_small (length p)), (add32_small (length p) 1), add32_small by (try exact F2; fit). rewrite E4. cbn [bind]. split; [exact E|]. apply OkI in E. subst it' pl.
  cbn. split; [|split; [|split; auto]].
  - constructor; cbn.
    + rewrite set_nth_len. apply I.
    + apply set_nth_all; auto. apply I.
    + apply below_set; auto; [apply I|lia].
    + apply I.
    + apply I.
  - unfold dkey. cbn. rewrite !app_length. cbn [length]. lia.
Qed.

Lemma left_sim : forall todo it pos it', dinv it -> dkey it -> d_level it < H -> d_left_loop todo ld it pos = Ok it' ->
  d_left_loop32 todo ld it pos = Ok it' /\ dinv it' /\ dkey it'.
Proof.
  induction todo as [|todo IH]; intros it pos it' I DK LV E; cbn [d_left_loop d_left_loop32] in *.
  - apply bindI in E as (n & E1 & E). apply child_sim in E1 as (-> & N1). cbn [bind]. pose proof (H_fits (d_level it) ltac:(lia)) as F1. unfold dkey in DK.
    rewrite w32_small by fit. split; [exact E|]. apply OkI in E. subst it'. split; [|exact DK]. apply dinv_flags, dinv_send; auto.
    eapply fits_le; [|exact HK]. pose proof (row_le _ LV). lia.
  - rewrite (add32_small (d_level it) 1), Nat.add_1_r by (apply H_lim; lia).
    apply bindI in E as (n & E1 & E). apply child_sim in E1 as (-> & N1). cbn [bind]. apply bindI in E as (p & E1 & E). rewrite E1. cbn [bind].
    apply bindI in E as (b & E2 & E). apply subchk in E2 as (C & ->). rewrite (mul32_small n 256), minus32_small by fit.
    apply bindI in E as (np & E2 & E). apply next_sim in E2 as (-> & N2); [|fit31]. cbn [bind].
    apply bindI in E as (it1 & E2 & E). apply append_sim in E2 as (-> & I1 & D1 & L1 & LT); [|now apply dinv_level|auto|cbn; unfold dkey in DK; lia]. cbn [bind].
    destruct p; [split; [exact E|]; apply OkI in E; subst it'; split; [now apply dinv_flags, dinv_at|exact D1]|].
    apply bindI in E as (h & E2 & E). rewrite E2. cbn [bind]. destruct h; cbn [negb] in *.
    + apply IH; auto. lia.
    + split; [exact E|]. apply OkI in E. subst it'. split; [now apply dinv_flags|exact D1].
Qed.
Lemma moveLeft_sim it it' : dinv it -> dkey it -> d_moveLeft ld it = Ok it' -> d_moveLeft32 ld it = Ok it' /\ dinv it' /\ dkey it'.
Proof.
  intros I DK E. unfold d_moveLeft, d_moveLeft32 in *. apply bindI in E as (p & E1 & E). rewrite E1. cbn [bind]. apply idx_lt in E1. pose proof (di_len _ I).
  apply bindI in E as (h & E2 & E). rewrite E2. cbn [bind]. destruct h; cbn [negb] in *.
  - pose proof (el_h _ L) as LH. rewrite minus32_small by (pose proof (H_lim _ LH); fit). apply left_sim; auto. lia.
  - split; [exact E|]. apply OkI in E. subst it'. split; [now apply dinv_flags|exact DK].
Qed.

Lemma right_sim : forall todo it pos it', dinv it -> dkey it -> d_level it < H -> d_right_loop todo ld it pos = Ok it' ->
  d_right_loop32 todo ld it pos = Ok it' /\ dinv it' /\ dkey it'.
Proof.
  induction todo as [|todo IH]; intros it pos it' I DK LV E; cbn [d_right_loop d_right_loop32] in *.
  - apply bindI in E as (n & E1 & E). apply child_sim in E1 as (-> & N1). cbn [bind]. pose proof (H_fits (d_level it) ltac:(lia)) as F1. unfold dkey in DK.
    rewrite w32_small by fit. split; [exact E|]. apply OkI in E. subst it'. split; [|exact DK]. apply dinv_flags, dinv_send; auto.
    eapply fits_le; [|exact HK]. pose proof (row_le _ LV). lia.
  - rewrite (add32_small (d_level it) 1), Nat.add_1_r by (apply H_lim; lia).
    apply bindI in E as (n & E1 & E). apply child_sim in E1 as (-> & N1). cbn [bind]. rewrite (add32_small n 1), mul32_small by fit.
    apply bindI in E as (pp & E2 & E). apply prev_sim in E2 as (-> & N2); [|fit31]. cbn [bind]. destruct pp as [np|].
    + apply bindI in E as (it1 & E2 & E). apply append_sim in E2 as (-> & I1 & D1 & L1 & LT); [|now apply dinv_level|auto|cbn; unfold dkey in DK; lia]. cbn [bind].
      apply bindI in E as (h & E2 & E). rewrite E2. cbn [bind]. destruct h; cbn [negb] in *.
      * apply IH; auto. lia.
      * split; [exact E|]. apply OkI in E. subst it'. split; [now apply dinv_flags|exact D1].
    + split; [exact E|]. apply OkI in E. subst it'. split; [now apply dinv_flags, dinv_level|]. unfold dkey in *. cbn. lia.
Qed.
Lemma moveRight_sim it it' : dinv it -> dkey it -> d_moveRight ld it = Ok it' -> d_moveRight32 ld it = Ok it' /\ dinv it' /\ dkey it'.
Proof.
  intros I DK E. unfold d_moveRight, d_moveRight32 in *. apply bindI in E as (p & E1 & E). rewrite E1. cbn [bind]. apply idx_lt in E1. pose proof (di_len _ I).
  apply bindI in E as (h & E2 & E). rewrite E2. cbn [bind]. destruct h; cbn [negb] in *.
  - pose proof (el_h _ L) as LH. rewrite minus32_small by (pose proof (H_lim _ LH); fit). apply right_sim; auto. lia.
  - split; [exact E|]. apply OkI in E. subst it'. split; [now apply dinv_flags|exact DK].
Qed.
Lemma lim31_0 : lim31 0. Proof. fit31. Qed.
Lemma first_sim it it' : dinv it -> length (d_key it) <= d_level it * K -> d_setToFirst ld it = Ok it' ->
  d_setToFirst32 ld it = Ok it' /\ dinv it' /\ dkey it'.
Proof.
  intros I KL E. unfold d_setToFirst, d_setToFirst32 in *. apply bindI in E as (l & E1 & E). rewrite E1. cbn [bind]. destruct l.
  - apply append_sim in E as (-> & I1 & D1 & _); auto using lim31_0.
  - apply bindI in E as (p & E2 & E). apply next_sim in E2 as (-> & N2); [|fit31]. cbn [bind]. apply append_sim in E as (-> & I1 & D1 & _); auto.
Qed.
Lemma last_sim it it' : dinv it -> length (d_key it) <= d_level it * K -> d_setToLast ld it = Ok it' ->
  d_setToLast32 ld it = Ok it' /\ dinv it' /\ dkey it'.
Proof.
  intros I KL E. unfold d_setToLast, d_setToLast32 in *. apply bindI in E as (pp & E1 & E). apply prev_sim in E1 as (-> & N1); [|fit31]. cbn [bind].
  destruct pp as [p|]; apply append_sim in E as (-> & I1 & D1 & _); auto using lim31_0.
Qed.

Lemma slice_len (l : bytes) a b x : slice l a b = Ok x -> length x = b - a.
Proof. unfold slice. intros E. destruct (Nat.leb_spec a b); [|discriminate]. destruct (Nat.leb_spec b (length l)); [|discriminate]. apply OkI in E. subst x. rewrite firstn_length, skipn_length. lia. Qed.
Lemma setAt_sim it pos it' : dinv it -> lim31 pos -> d_setAt it pos = Ok it' ->
  d_setAt32 it pos = Ok it' /\ dinv it' /\ dkey it'.
Proof.
  intros I P E. unfold d_setAt, d_setAt32 in *. apply bindI in E as (pl & E1 & E). rewrite E1. cbn [bind]. apply bindI in E as (n & E2 & E). apply subchk in E2 as (C & ->).
  apply bindI in E as (k & E2 & E). apply bindI in E as (ps & E3 & E). pose proof (upd_inv _ _ _ _ E3) as (LP & ->).
  apply idx_Ok in E1. apply (di_plen _ I) in E1. pose proof (di_len _ I). pose proof (el_h _ L). pose proof (H_fits (d_level it) ltac:(lia)) as F1.
  rewrite minus32_small by (auto; eapply fits_le; eauto). rewrite E2. cbn [bind]. rewrite E3. cbn [bind]. split; [exact E|]. apply OkI in E. subst it'.
  apply slice_len in E2. split.
  - constructor; cbn; try apply I.
    + rewrite set_nth_len. apply I.
    + apply set_nth_all; auto. apply I.
  - unfold dkey. cbn. rewrite app_length. cbn [length]. lia.
Qed.
Lemma truncate_sim it it' : dinv it -> d_truncate it = Ok it' -> d_truncate32 it = Ok it' /\ dinv it' /\ dkey it'.
Proof.
  intros I E. split; [exact E|]. unfold d_truncate in E. apply bindI in E as (pl & E1 & E). apply bindI in E as (k & E2 & E). apply OkI in E. subst it'.
  split; [now apply dinv_key|]. unfold dkey. cbn. apply idx_Ok in E1. apply (di_plen _ I) in E1. apply slice_len in E2. lia.
Qed.

Lemma dok_bad it : dinv it -> d_valid it = false -> dok it.
Proof. intros I V. split; auto. congruence. Qed.
Lemma next_climb_sim : forall level it it', dinv it -> d_next_climb level ld it = Ok it' -> d_next_climb32 level ld it = Ok it' /\ dok it'.
Proof.
  induction level as [|level IH]; intros it it' I E; cbn [d_next_climb d_next_climb32] in *; apply bindI in E as (p & E1 & E); rewrite E1; cbn [bind];
    pose proof (idx_all _ _ _ _ (di_pos _ I) E1) as P; apply bindI in E as (np & E2 & E); apply next_sim in E2 as (-> & N2); auto; cbn [bind];
    (destruct (_ || _); [|apply bindI in E as (it1 & E2 & E); apply setAt_sim in E2 as (-> & I1 & D1); auto using dinv_level; cbn [bind];
      apply moveLeft_sim in E as (-> & I2 & D2); auto; split; auto; split; auto]).
  - split; [exact E|]. apply OkI in E. subst it'. apply dok_bad; auto. now apply dinv_flags, dinv_level.
  - now apply IH.
Qed.
Lemma d_next_sim it it' : dinv it -> dkey it -> d_next ld it = Ok it' -> d_next32 ld it = Ok it' /\ dok it'.
Proof.
  intros I DK E. unfold d_next, d_next32 in *. destruct (Nat.eqb_spec (ld_height ld) 0); [apply OkI in E; subst it'; split; auto; split; auto|]. destruct (d_atPrefix it).
  - apply moveLeft_sim in E as (-> & I2 & D2); auto using dinv_at. split; auto. split; auto.
  - apply next_climb_sim; auto.
Qed.
Lemma prev_climb_sim : forall level it it', dinv it -> d_prev_climb level ld it = Ok it' -> d_prev_climb32 level ld it = Ok it' /\ dok it'.
Proof.
  induction level as [|level IH]; intros it it' I E; cbn [d_prev_climb d_prev_climb32] in *; apply bindI in E as (p & E1 & E); rewrite E1; cbn [bind];
    pose proof (idx_all _ _ _ _ (di_pos _ I) E1) as P; apply bindI in E as (pp & E2 & E); apply prev_sim in E2 as (-> & N2); auto; cbn [bind];
    (destruct pp as [np|]; [|split; [exact E|]; apply OkI in E; subst it'; apply dok_bad; auto; now apply dinv_flags, dinv_level]);
    (destruct (Nat.ltb _ _); [|apply bindI in E as (it1 & E2 & E); apply setAt_sim in E2 as (-> & I1 & D1); auto using dinv_level; cbn [bind];
      apply moveRight_sim in E as (-> & I2 & D2); auto; split; auto; split; auto]);
    apply bindI in E as (b & E2 & E); rewrite E2; cbn [bind];
    (destruct b; [apply bindI in E as (it1 & E3 & E); apply truncate_sim in E3 as (-> & I1 & D1); auto using dinv_level; cbn [bind]; split; [exact E|];
      apply OkI in E; subst it'; split; [now apply dinv_flags, dinv_at|intros _; exact D1]|]).
  - split; [exact E|]. apply OkI in E. subst it'. apply dok_bad; auto. now apply dinv_flags, dinv_level.
  - now apply IH.
Qed.
Lemma d_prev_sim it it' : dok it -> d_prev ld it = Ok it' -> d_prev32 ld it = Ok it' /\ dok it'.
Proof.
  intros DO E. pose proof (proj1 DO) as I. unfold d_prev, d_prev32 in *. destruct (Nat.eqb_spec (ld_height ld) 0) as [Z|Z]; [apply OkI in E; subst it'; auto|].
  destruct (d_atPrefix it).
  - apply bindI in E as (l & E1 & E). apply subchk in E1 as (C & ->).
    assert (LV : d_level it - 1 < length (d_pos it)). { destruct (d_level it - 1); cbn [d_prev_climb] in E; apply bindI in E as (q & E1 & _); now apply idx_lt in E1. }
    pose proof (di_len _ I). pose proof (el_h _ L) as EH. pose proof (H_lim H ltac:(lia)) as HL. cbv zeta. rewrite minus32_small by fit.
    apply prev_climb_sim; auto. now apply dinv_level, dinv_at.
  - apply prev_climb_sim; auto.
Qed.

Lemma dcompare_sim it key pos lv r : dinv it -> dkey it -> shortkey key -> lv <= length key -> d_compareSuffix ld it key pos lv = Ok r ->
  d_compareSuffix32 ld it key pos lv = Ok r /\ dok (fst r).
Proof.
  intros I DK SK LV E. unfold d_compareSuffix, d_compareSuffix32 in *. apply bindI in E as (sp & E1 & E).
  apply (ld_suffixPos32_ok _ _ _ _ (el_lim _ L)) in E1 as (-> & L1). cbn [bind].
  rewrite compare32 by (auto; try apply L; lia). apply bindI in E as (c & -> & E). cbn [bind].
  destruct (c <? 0)%Z.
  - apply bindI in E as (it1 & E3 & E). apply d_next_sim in E3 as (-> & D1); auto. cbn [bind]. split; [exact E|]. apply OkI in E. subst r. exact D1.
  - split; [exact E|]. apply OkI in E. subst r. split; [now apply dinv_flags|intros _; exact DK].
Qed.

Lemma K_short key p : shortkey key -> p < K -> fits32 (length key + p + 1) .
Proof. intros SK P. unfold shortkey in SK. pose proof (H_fits 1 ltac:(lia)) as F. fit. Qed.
Lemma d_seek_sim key : shortkey key -> Forall (fun b => b < 256) key -> forall todo it n d r, d_level it + todo <= H -> dinv it -> length (d_key it) <= d_level it * K ->
  (N.of_nat n < 8388607)%N -> d <= length key -> d_seek_loop todo ld it key n d = Ok r -> d_seek_loop32 todo ld it key n d = Ok r /\ dok (fst r).
Proof.
  intros SK W. induction todo as [|todo IH]; intros it n d r LV I DK NB DL E; cbn [d_seek_loop d_seek_loop32] in *.
  - split; [exact E|]. apply OkI in E. subst r. cbn [fst]. split.
    + apply dinv_flags, dinv_send; [now apply dinv_level|auto|]. eapply fits_le; [|apply (K_short key (K - 1) SK)]; lia.
    + intros _. unfold dkey. cbn. destruct (d_level it); cbn [Nat.pred]; lia.
  - pose proof (H_lim H ltac:(lia)) as HL.
    apply bindI in E as (p & E1 & E). pose proof (el_pre _ L _ _ E1) as PL. rewrite (getPrefix32_ok _ _ _ (dl_pre _ (el_lim _ L)) E1). cbn [bind].
    apply bindI in E as (c & -> & E). cbn [bind]. destruct (c <? 0)%Z.
    + destruct (Nat.eqb n 0). { split; [exact E|]. apply OkI in E. subst r. apply dok_bad; auto. now apply dinv_flags. }
      apply bindI in E as (l & E2 & E). apply subchk in E2 as (C & ->). apply bindI in E as (it1 & E2 & E).
      rewrite minus32_small by fit. apply d_next_sim in E2 as (-> & D1); [|now apply dinv_level|unfold dkey; cbn; now replace (d_level it - 1 + 1) with (d_level it) by lia].
      cbn [bind]. split; [exact E|]. apply OkI in E. subst r. exact D1.
    + pose proof (K_short key (length p) SK PL) as KS. cbv zeta in *. unfold shortkey in SK.
      rewrite (w32_small (length p)), (w32_small (length key)), (add32_small d (length p)), (mul32_small n 256) by fit.
      destruct (_ || _) eqn:EB.
      * apply bindI in E as (it1 & E2 & E).
        assert (A : (if Nat.ltb 0 (n * 256) then p <- ld_nextPos32 ld (minus32 (n * 256) 1) ;; d_append32 ld it p else d_setToFirst32 ld it) = Ok it1 /\ dinv it1 /\ dkey it1).
        { destruct (Nat.ltb_spec 0 (n * 256)).
          - apply bindI in E2 as (q & E3 & E2). rewrite minus32_small by fit. apply next_sim in E3 as (-> & N2); [|fit31]. cbn [bind].
            apply append_sim in E2 as (-> & I1 & D1 & _); auto.
          - now apply first_sim. }
        destruct A as (-> & I1 & D1). cbn [bind]. apply bindI in E as (b & -> & E). cbn [bind]. apply bindI in E as (it2 & E3 & E).
        assert (A : (if b then Ok (d_complete_flags (d_setAtPrefix it1 true)) else d_moveLeft32 ld it1) = Ok it2 /\ dinv it2 /\ dkey it2).
        { destruct b.
          - split; auto. apply OkI in E3. subst it2. split; [now apply dinv_flags, dinv_at|exact D1].
          - now apply moveLeft_sim. }
        destruct A as (-> & I2 & D2). cbn [bind]. split; [exact E|]. apply OkI in E. subst r. split; auto.
      * apply Bool.orb_false_iff in EB as (EB & _). apply Nat.leb_gt in EB.
        apply bindI in E as (kb & E2 & E). rewrite E2. cbn [bind]. assert (KB : kb < 256) by (apply (idx_all _ _ _ _ W E2)).
        rewrite add32_small by fit. apply bindI in E as (it1 & E3 & E). apply append_sim in E3 as (-> & I1 & D1 & L1 & _); auto; [|fit31]. cbn [bind].
        apply bindI in E as (l & -> & E). cbn [bind]. destruct l; cbn [negb] in *.
        2: { apply bindI in E as (it2 & E3 & E). apply d_next_sim in E3 as (-> & D2); auto. cbn [bind]. split; [exact E|]. apply OkI in E. subst r. exact D2. }
        apply bindI in E as (h & -> & E). cbn [bind]. rewrite (add32_small _ 1) by fit. destruct h; cbn [negb] in *.
        2: { apply dcompare_sim; auto. lia. }
        apply bindI in E as (m & E3 & E). apply child_sim in E3 as (-> & N3). cbn [bind]. rewrite (add32_small _ 1), Nat.add_1_r by fit.
        apply IH; auto using dinv_level; [cbn; lia|cbn; unfold dkey in D1; lia|lia].
Qed.
Lemma d_seek_same it key r : shortkey key -> Forall (fun b => b < 256) key -> dinv it -> d_key it = [] -> d_seek ld it key = Ok r -> d_seek32 ld it key = Ok r /\ dok (fst r).
Proof. intros SK W I Z E. apply d_seek_sim; auto; [cbn; apply L|now apply dinv_level|cbn; rewrite Z; cbn; lia|reflexivity|lia]. Qed.

Lemma d_value_same it x : fits32 (length (vv_bytes (ld_values ld))) -> d_Value ld it = Ok x -> d_Value32 ld it = Ok x.
Proof.
  intros F E. unfold d_Value, d_Value32 in *. apply bindI in E as (p & -> & E). cbn [bind]. apply bindI in E as (vp & E1 & E).
  apply (ld_suffixPos32_ok _ _ _ _ (el_lim _ L)) in E1 as (-> & _). cbn [bind]. now apply value_get32.
Qed.
Lemma d_compare_same it key x : shortkey key -> d_compare ld it key = Ok x -> d_compare32 ld it key = Ok x.
Proof.
  intros SK E. unfold d_compare, d_compare32 in *. apply bindI in E as (ik & -> & E). cbn [bind]. cbv zeta in *. destruct (negb _); auto.
  destruct (Nat.ltb_spec (length key) (length ik)); auto. destruct (_ && _); auto. destruct (d_isComplete it); auto.
  apply bindI in E as (p & -> & E). cbn [bind]. apply bindI in E as (sp & E1 & E).
  apply (ld_suffixPos32_ok _ _ _ _ (el_lim _ L)) in E1 as (-> & L1). cbn [bind]. unfold shortkey in SK. rewrite w32_small by fit.
  rewrite compare32 by (auto; try apply L; lia). exact E.
Qed.
End Dense.

(* ------------------------------------------------------------------ *)
(** ** Sparse levels *)

Record splim (ls : loudsSparse) : Prop := {
  es_lim : lslim ls;
  es_pre : forall n p, getPrefix (ls_prefix ls) n = Ok p -> length p < K;
  es_h : ls_sparseLevels ls <= H;
  es_start : ls_startLevel ls <= ls_height ls;
  es_height : fits32 (ls_height ls) }.

Lemma next_ge v : forall todo wo d r, 64 <= d -> next_loop todo v wo d = Ok r -> 1 <= r.
Proof.
  induction todo as [|todo IH]; intros wo d r D E; cbn [next_loop] in E.
  - apply OkI in E. subst r. destruct (Nat.eqb_spec (bv_numBits v mod 64) 0) as [Z|Z]; [rewrite Bool.andb_false_r; lia|]. destruct (_ && _); lia.
  - apply bindI in E as (w & _ & E). destruct (0 <? w)%N; [apply OkI in E; lia|]. eapply IH; [|exact E]. lia.
Qed.
Lemma size_pos v B d : bv_rep v B -> 0 < length B -> distanceToNextSetBit v 0 = Ok d -> 1 <= d.
Proof.
  intros (R1 & R2 & _) NE E. unfold distanceToNextSetBit in E. replace ((0 + 1) / 64) with 0 in E by reflexivity. replace ((0 + 1) mod 64) with 1 in E by reflexivity.
  pose proof (numWords_bound (length B)) as (NA & _). destruct (Nat.leb_spec (length (bv_bits v)) 0); [rewrite R2 in *; lia|].
  apply bindI in E as (w & _ & E). cbv zeta in E. destruct (0 <? _)%N; [apply OkI in E; lia|].
  destruct (Nat.eqb 0 _); [apply OkI in E; rewrite R1 in E; lia|]. eapply next_ge; [|exact E]. lia.
Qed.

Section Sparse.
Variable ls : loudsSparse.
Hypothesis L : splim ls.

Record pinv (it : sparseIter) : Prop := {
  pi_len : length (p_pos it) <= H;
  pi_pos : Forall (fun p => p < length (ls_label ls)) (p_pos it);
  pi_plen : below (p_plen it);
  pi_node : (N.of_nat (p_startNode it) <= 67108864)%N;
  pi_depth : fits32 (p_startDepth it + K) }.
Definition pkey (it : sparseIter) : Prop := length (p_key it) <= (p_level it + 1) * K.

Lemma pinv_level it l : pinv it -> pinv (p_setLevel it l). Proof. intros [A B C D E]; constructor; auto. Qed.
Lemma pinv_valid it v : pinv it -> pinv (p_setValid it v). Proof. intros [A B C D E]; constructor; auto. Qed.
Lemma pinv_at it b : pinv it -> pinv (p_setAtTerm it b). Proof. intros [A B C D E]; constructor; auto. Qed.
Lemma pinv_key it k : pinv it -> pinv (p_setKey it k). Proof. intros [A B C D E]; constructor; auto. Qed.
Lemma pinv_reset it : pinv it -> pinv (p_reset it). Proof. intros [A B C D E]; constructor; auto. Qed.
Lemma pinv_start it n d : pinv it -> (N.of_nat n <= 67108864)%N -> fits32 (d + K) -> pinv (p_setStart it n d). Proof. intros [A B C D E]; constructor; auto. Qed.

Lemma labels_lim : lim2 (length (ls_label ls)). Proof. apply L. Qed.
Lemma levels32 : ls_sparseLevels32 ls = ls_sparseLevels ls.
Proof. unfold ls_sparseLevels32, ls_sparseLevels. apply minus32_small; apply L. Qed.
Lemma prefixID32 n x : (N.of_nat n <= 67108864)%N -> ls_prefixID ls n = Ok x -> ls_prefixID32 ls n = x.
Proof. intros B E. unfold ls_prefixID, ls_prefixID32 in *. apply subchk in E as (C & ->). apply minus32_small; auto. fit. Qed.
Lemma pchild_sim pos x : ls_childNodeID ls pos = Ok x -> ls_childNodeID32 ls pos = Ok x /\ (N.of_nat x <= 67108864)%N.
Proof.
  intros E. unfold ls_childNodeID, ls_childNodeID32 in *. apply bindI in E as (r & E1 & E). destruct (rankS _ _ _ (sl_hasc _ (es_lim _ L)) E1) as (-> & B). cbn [bind].
  pose proof (sl_dc _ (es_lim _ L)). rewrite add32_small by fit. split; auto. apply OkI in E. subst x. unfold lim, lim2 in *. lia.
Qed.
Lemma pfirst_sim n p : (N.of_nat n <= 67108864)%N -> ls_firstLabelPos ls n = Ok p -> ls_firstLabelPos32 ls n = Ok p.
Proof. intros B E. now apply (firstLabel32 ls n p (es_lim _ L)). Qed.
Lemma plast_sim n p : (N.of_nat n <= 67108864)%N -> ls_lastLabelPos ls n = Ok p -> ls_lastLabelPos32 ls n = Ok p.
Proof.
  intros B E. unfold ls_lastLabelPos, ls_lastLabelPos32 in *. apply bindI in E as (r & E1 & E). apply subchk in E1 as (C & ->).
  destruct (sl_louds _ (es_lim _ L)) as (X & SR & NE & LB & LL). pose proof SR as ((RN & _) & _).
  rewrite (add32_small n 2), (minus32_small (n + 2)) by (auto; fit). cbv zeta. destruct (Nat.ltb _ _).
  - apply subchk in E as (C2 & ->). rewrite minus32_small by (auto; rewrite RN; fit). reflexivity.
  - apply bindI in E as (q & E1 & E). pose proof (select_lt _ _ _ _ SR NE E1). rewrite (select32_ok _ _ _ _ SR NE LB E1). cbn [bind].
    apply subchk in E as (C2 & ->). rewrite minus32_small by (auto; fit). reflexivity.
Qed.
Lemma pend_sim pos x : pos < length (ls_label ls) -> ls_isEndOfNode ls pos = Ok x -> ls_isEndOfNode32 ls pos = Ok x.
Proof.
  intros P E. unfold ls_isEndOfNode, ls_isEndOfNode32 in *. apply bindI in E as (l & E1 & E). apply subchk in E1 as (C & ->).
  destruct (sl_louds _ (es_lim _ L)) as (X & SR & NE & LB & LL). pose proof SR as ((RN & _) & _). pose proof labels_lim.
  rewrite minus32_small by (auto; rewrite RN; fit). rewrite add32_small by fit. exact E.
Qed.

Lemma pappend_sim it lb pos n it' : pinv it -> pos < length (ls_label ls) -> (N.of_nat n <= 67108864)%N -> length (p_key it) <= p_level it * K -> p_append ls it lb pos n = Ok it' ->
  p_append32 ls it lb pos n = Ok it' /\ pinv it' /\ pkey it' /\ p_level it' = p_level it /\ p_level it < H.
Proof.
  intros I P NB KL E. unfold p_append, p_append32 in *. apply bindI in E as (pid & E0 & E). apply prefixID32 in E0; auto. rewrite E0.
  apply bindI in E as (p & E1 & E). pose proof (es_pre _ L _ _ E1) as PL.
  rewrite (getPrefix32_ok _ _ _ (sl_pre _ (es_lim _ L)) E1). cbn [bind].
  apply bindI in E as (ps & E2 & E). rewrite E2. cbn [bind]. apply bindI in E as (base & E3 & E). rewrite E3. cbn [bind]. apply bindI in E as (pl & E4 & E).
  apply upd_inv in E2 as (L2 & ->). pose proof (upd_inv _ _ _ _ E4) as (L4 & E5).
  assert (LV : p_level it < H) by (pose proof (pi_len _ I); lia).
  assert (BB : base <= p_level it * K).
  { destruct (Nat.eqb_spec (p_level it) 0) as [Z|Z]; [apply OkI in E3; lia|]. apply idx_Ok in E3. apply (pi_plen _ I) in E3. replace (p_level it - 1 + 1) with (p_level it) in E3 by lia. exact E3. }
  pose proof (H_fits (p_level it) ltac:(lia)) as F1.
  assert (F2 : fits32 (length p + 1 + base)) by (eapply fits_le; [|exact F1]; lia).
  rewrite (w32_small (length p)), (add32_small (length p) 1), add32_small by (try exact F2; fit). rewrite E4. cbn [bind].
  apply bindI in E as (ns & E6 & E). rewrite E6. cbn [bind]. split; [exact E|]. apply OkI in E. subst it' pl.
  cbn. split; [|split; [|split; auto]].
  - constructor; cbn.
    + rewrite set_nth_len. apply I.
    + apply set_nth_all; auto. apply I.
    + apply below_set; auto; [apply I|lia].
    + apply I.
    + apply I.
  - unfold pkey. cbn. rewrite !app_length. cbn [length]. lia.
Qed.
Lemma pfinish_sim it lb pos it' : pinv it -> pkey it -> pos < length (ls_label ls) -> p_finish ls it lb pos = Ok it' ->
  p_finish32 ls it lb pos = Ok it' /\ pinv it' /\ pkey it'.
Proof.
  intros I PK P E. unfold p_finish, p_finish32 in *. apply bindI in E as (t & E1 & E).
  assert (A : (if Nat.eqb lb labelTerminator then e <- ls_isEndOfNode32 ls pos ;; Ok (negb e) else Ok false) = Ok t).
  { destruct (Nat.eqb lb _); auto. apply bindI in E1 as (e & E2 & E1). apply pend_sim in E2; auto. rewrite E2. exact E1. }
  rewrite A. cbn [bind]. split; [exact E|]. apply OkI in E. subst it'. destruct t; (split; [|exact PK]); apply pinv_valid; auto using pinv_at.
Qed.

Section Down.
Variables cp cp32 : nat -> res nat.
Hypothesis CP : forall n p, (N.of_nat n <= 67108864)%N -> cp n = Ok p -> cp32 n = Ok p.
Lemma pdown_sim : forall todo it pos it', pinv it -> pkey it -> p_level it < H -> p_down_loop cp todo ls it pos = Ok it' ->
  p_down_loop32 cp32 todo ls it pos = Ok it' /\ pinv it' /\ pkey it'.
Proof.
  induction todo as [|todo IH]; intros it pos it' I PK LV E; cbn [p_down_loop p_down_loop32] in *; [discriminate|].
  rewrite (add32_small (p_level it) 1), Nat.add_1_r by (apply H_lim; lia).
  apply bindI in E as (n & E1 & E). apply pchild_sim in E1 as (-> & N1). cbn [bind]. apply bindI in E as (p & E1 & E). apply CP in E1; auto. rewrite E1. cbn [bind].
  apply bindI in E as (lb & E2 & E). rewrite E2. cbn [bind]. apply idx_lt in E2. apply bindI in E as (h & -> & E). cbn [bind].
  apply bindI in E as (it1 & E3 & E). apply pappend_sim in E3 as (-> & I1 & D1 & L1 & LT); [|now apply pinv_level|auto|auto|cbn; unfold pkey in PK; lia]. cbn [bind].
  destruct h; cbn [negb] in *; [apply IH; auto; lia|apply pfinish_sim; auto].
Qed.
Lemma pmove_sim it it' : pinv it -> pkey it -> p_move cp ls it = Ok it' -> p_move32 cp32 ls it = Ok it' /\ pinv it' /\ pkey it'.
Proof.
  intros I PK E. unfold p_move, p_move32 in *. apply bindI in E as (it1 & E1 & E).
  assert (A : (match p_key it with
         | [] => pos <- cp32 (p_startNode it) ;; label <- getLabel (ls_label ls) pos ;; p_append32 ls it label pos (p_startNode it)
         | _ => Ok it end) = Ok it1 /\ pinv it1 /\ pkey it1).
  { destruct (p_key it) eqn:EK; [|apply OkI in E1; subst it1; auto].
    apply bindI in E1 as (p & E2 & E1). apply CP in E2; [|apply I]. rewrite E2. cbn [bind]. apply bindI in E1 as (lb & E3 & E1). rewrite E3. cbn [bind]. apply idx_lt in E3.
    apply pappend_sim in E1 as (-> & I1 & D1 & _); auto; [apply I|rewrite EK; cbn; lia]. }
  destruct A as (-> & I1 & D1). cbn [bind]. apply bindI in E as (p & E2 & E). rewrite E2. cbn [bind]. apply idx_lt in E2. pose proof (pi_len _ I1).
  apply bindI in E as (lb & E3 & E). rewrite E3. cbn [bind]. apply idx_lt in E3. apply bindI in E as (h & -> & E). cbn [bind].
  destruct h; cbn [negb] in *; [|apply pfinish_sim; auto]. rewrite levels32. apply pdown_sim; auto. lia.
Qed.
End Down.
Lemma pleft_sim it it' : pinv it -> pkey it -> p_moveLeft ls it = Ok it' -> p_moveLeft32 ls it = Ok it' /\ pinv it' /\ pkey it'.
Proof. intros I PK E. exact (pmove_sim _ _ pfirst_sim it it' I PK E). Qed.
Lemma pright_sim it it' : pinv it -> pkey it -> p_moveRight ls it = Ok it' -> p_moveRight32 ls it = Ok it' /\ pinv it' /\ pkey it'.
Proof. intros I PK E. exact (pmove_sim _ _ plast_sim it it' I PK E). Qed.

Lemma psetAt_sim it pos it' : pinv it -> p_setAt ls it pos = Ok it' -> p_setAt32 ls it pos = Ok it' /\ pinv it' /\ pkey it'.
Proof.
  intros I E. unfold p_setAt, p_setAt32 in *. apply bindI in E as (pl & E1 & E). rewrite E1. cbn [bind]. apply bindI in E as (n & E2 & E). apply subchk in E2 as (C & ->).
  apply bindI in E as (k & E2 & E). apply bindI in E as (lb & E4 & E). apply bindI in E as (ps & E3 & E). pose proof (upd_inv _ _ _ _ E3) as (LP & ->).
  apply idx_Ok in E1. apply (pi_plen _ I) in E1. pose proof (pi_len _ I). pose proof (H_fits (p_level it) ltac:(lia)) as F1.
  rewrite minus32_small by (auto; eapply fits_le; eauto). rewrite E2. cbn [bind]. rewrite E4. cbn [bind]. apply idx_lt in E4. rewrite E3. cbn [bind]. split; [exact E|]. apply OkI in E. subst it'.
  apply slice_len in E2. split.
  - constructor; cbn; try apply I.
    + rewrite set_nth_len. apply I.
    + apply set_nth_all; auto. apply I.
  - unfold pkey. cbn. rewrite app_length. cbn [length]. lia.
Qed.
Lemma pempty_key it : pkey (p_setKey it []). Proof. unfold pkey. cbn. lia. Qed.
Lemma pnext_climb_sim : forall level it it', pinv it -> p_next_climb level ls it = Ok it' -> p_next_climb32 level ls it = Ok it' /\ pinv it' /\ pkey it'.
Proof.
  pose proof labels_lim as LL.
  induction level as [|level IH]; intros it it' I E; cbn [p_next_climb p_next_climb32] in *; apply bindI in E as (p & E1 & E); rewrite E1; cbn [bind];
    pose proof (idx_all _ _ _ _ (pi_pos _ I) E1) as P; cbv beta in P; apply bindI in E as (q & -> & E); cbn [bind]; cbv zeta in *; rewrite add32_small by fit;
    apply bindI in E as (up & -> & E); cbn [bind];
    (destruct up; [|apply bindI in E as (it1 & E2 & E); apply psetAt_sim in E2 as (-> & I1 & D1); auto using pinv_level; cbn [bind]; now apply pleft_sim]).
  - split; [exact E|]. apply OkI in E. subst it'. split; [now apply pinv_key, pinv_valid, pinv_level|apply pempty_key].
  - now apply IH.
Qed.
Lemma pnext_sim it it' : pinv it -> p_next ls it = Ok it' -> p_next32 ls it = Ok it' /\ pinv it' /\ pkey it'.
Proof. intros I E. apply pnext_climb_sim; auto using pinv_at. Qed.
Lemma pprev_climb_sim : forall level it it', pinv it -> p_prev_climb level ls it = Ok it' -> p_prev_climb32 level ls it = Ok it' /\ pinv it' /\ pkey it'.
Proof.
  pose proof labels_lim as LL.
  induction level as [|level IH]; intros it it' I E; cbn [p_prev_climb p_prev_climb32] in *; apply bindI in E as (p & E1 & E); rewrite E1; cbn [bind];
    pose proof (idx_all _ _ _ _ (pi_pos _ I) E1) as P; cbv beta in P; apply bindI in E as (q & -> & E); cbn [bind];
    apply bindI in E as (up & -> & E); cbn [bind];
    (destruct up; [|apply bindI in E as (p1 & E2 & E); apply subchk in E2 as (C & ->); rewrite minus32_small by (auto; fit);
      apply bindI in E as (it1 & E2 & E); apply psetAt_sim in E2 as (-> & I1 & D1); auto using pinv_level; cbn [bind]; now apply pright_sim]).
  - split; [exact E|]. apply OkI in E. subst it'. split; [now apply pinv_key, pinv_valid, pinv_level|apply pempty_key].
  - now apply IH.
Qed.
Lemma pprev_sim it it' : pinv it -> pkey it -> p_prev ls it = Ok it' -> p_prev32 ls it = Ok it' /\ pinv it' /\ pkey it'.
Proof.
  intros I PK E. unfold p_prev, p_prev32 in *. cbv zeta in *. apply bindI in E as (p & -> & E). cbn [bind]. apply bindI in E as (q & -> & E). cbn [bind].
  destruct (Nat.eqb p 0); [split; [exact E|]; apply OkI in E; subst it'; split; [now apply pinv_valid, pinv_at|exact PK]|].
  apply pprev_climb_sim; auto using pinv_at.
Qed.

Lemma pleftnext_sim it pos n size lb it' : pinv it -> (N.of_nat n <= 67108864)%N -> pos <= length (ls_label ls) + 1 -> lim2 size -> 1 <= pos + size ->
  length (p_key it) <= p_level it * K -> p_leftInNext ls it pos n size lb = Ok it' -> p_leftInNext32 ls it pos n size lb = Ok it' /\ pinv it' /\ pkey it'.
Proof.
  intros I NB PB SB NZ PK E. unfold p_leftInNext, p_leftInNext32 in *. apply bindI in E as ((p & ok) & E1 & E).
  rewrite (searchgt32 _ _ _ _ _ labels_lim PB SB NZ E1). cbn [bind]. apply bindI in E as (l & E2 & E). rewrite E2. cbn [bind]. apply idx_lt in E2.
  apply bindI in E as (it1 & E3 & E). apply pappend_sim in E3 as (-> & I1 & D1 & _); auto. cbn [bind]. destruct ok; [now apply pleft_sim|now apply pnext_sim].
Qed.
Lemma pcompare_sim it key pos lv r : pinv it -> pkey it -> pos < length (ls_label ls) -> shortkey key -> lv <= length key -> p_compareSuffix ls it key pos lv = Ok r ->
  p_compareSuffix32 ls it key pos lv = Ok r /\ pinv (fst r) /\ pkey (fst r).
Proof.
  intros I DK P SK LV E. unfold p_compareSuffix, p_compareSuffix32 in *. apply bindI in E as (sp & E1 & E).
  apply (ls_suffixPos32_ok _ _ _ (es_lim _ L) P) in E1 as (-> & L1). cbn [bind].
  rewrite compare32 by (auto; try apply L; lia). apply bindI in E as (c & -> & E). cbn [bind]. destruct (c <? 0)%Z.
  - apply bindI in E as (it1 & E3 & E). apply pnext_sim in E3 as (-> & D1); auto. cbn [bind]. split; [exact E|]. apply OkI in E. subst r. exact D1.
  - split; [exact E|]. apply OkI in E. subst r. split; [now apply pinv_valid|exact DK].
Qed.

Lemma label_search_no labels k start size p : label_search labels k start size = Ok (p, false) -> start <= p <= start + 1.
Proof.
  unfold label_search, skip_terminator. intros E. apply bindI in E as ((st & sz) & E0 & E). apply bindI in E as (s & _ & E).
  assert (start <= st <= start + 1).
  { destruct (Nat.ltb 1 size); [|apply OkI in E0; inversion E0; lia]. apply bindI in E0 as (l & _ & E0). apply OkI in E0. destruct (Nat.eqb l _); inversion E0; lia. }
  destruct (indexByte s k); apply OkI in E; inversion E; subst; lia.
Qed.
(** The first label of a node. *)
Definition at_node (pos : nat) : Prop := exists B, sv_rep (ls_louds ls) B /\ lim (length B) /\ pos < length B /\ length B < length (ls_label ls).
Lemma p_seek_sim key : shortkey key -> forall todo it n pos d r, pinv it -> length (p_key it) <= p_level it * K -> at_node pos ->
  (N.of_nat n <= 67108864)%N -> fits32 (d + K) -> p_seek_loop todo ls it key n pos d = Ok r ->
  p_seek_loop32 todo ls it key n pos d = Ok r /\ pinv (fst r) /\ pkey (fst r).
Proof.
  intros SK. pose proof labels_lim as LL. induction todo as [|todo IH]; intros it n pos d r I PK AT NB DB E; cbn [p_seek_loop p_seek_loop32] in *.
  - rewrite (w32_small (length key)) by (unfold shortkey in SK; fit).
    apply bindI in E as (l & E1 & E). rewrite E1. cbn [bind]. apply idx_lt in E1. apply bindI in E as (t & E2 & E).
    assert (A : (if Nat.eqb l labelTerminator then h <- rv_isSet (ls_hasChild ls) pos ;; if negb h then e <- ls_isEndOfNode32 ls pos ;; Ok (negb e) else Ok false else Ok false) = Ok t).
    { destruct (Nat.eqb l _); auto. apply bindI in E2 as (h & -> & E2). cbn [bind]. destruct h; auto. cbn [negb] in *. apply bindI in E2 as (e & E3 & E2). apply pend_sim in E3; auto. rewrite E3. exact E2. }
    rewrite A. cbn [bind]. destruct t.
    { apply bindI in E as (it1 & E3 & E). apply pappend_sim in E3 as (-> & I1 & D1 & _); auto. cbn [bind]. split; [exact E|]. apply OkI in E. subst r.
      split; [now apply pinv_valid, pinv_at|exact D1]. }
    destruct (Nat.leb (length key) d).
    { apply bindI in E as (it1 & E3 & E). apply pleft_sim in E3 as (-> & I1 & D1); auto; [|unfold pkey; lia]. cbn [bind]. split; [exact E|]. apply OkI in E. subst r. auto. }
    split; [exact E|]. apply OkI in E. subst r. split; [now apply pinv_valid|]. unfold pkey. cbn. lia.
  - apply bindI in E as (pid & E0 & E). apply prefixID32 in E0; auto. rewrite E0.
    apply bindI in E as (p & E1 & E). pose proof (es_pre _ L _ _ E1) as PL. rewrite (getPrefix32_ok _ _ _ (sl_pre _ (es_lim _ L)) E1). cbn [bind].
    apply bindI in E as (c & -> & E). cbn [bind]. destruct (c <? 0)%Z.
    + destruct (Nat.eqb_spec (p_level it) 0). { split; [exact E|]. apply OkI in E. subst r. split; [now apply pinv_valid|]. unfold pkey. cbn. lia. }
      apply bindI in E as (it1 & E2 & E). apply pnext_sim in E2 as (-> & D1); [|now apply pinv_level].
      cbn [bind]. split; [exact E|]. apply OkI in E. subst r. exact D1.
    + pose proof (K_short key (length p) SK PL) as KS. cbv zeta in *. pose proof SK as SK2. unfold shortkey in SK2.
      rewrite (w32_small (length p)), (w32_small (length key)), (add32_small d (length p)) by fit.
      destruct (_ || _) eqn:EB.
      * apply bindI in E as (l & E2 & E). rewrite E2. cbn [bind]. apply idx_lt in E2. apply bindI in E as (it1 & E3 & E).
        apply pappend_sim in E3 as (-> & I1 & D1 & _); auto. cbn [bind]. apply bindI in E as (it2 & E3 & E). apply pleft_sim in E3 as (-> & I2 & D2); auto. cbn [bind].
        split; [exact E|]. apply OkI in E. subst r. auto.
      * apply Bool.orb_false_iff in EB as (EB & _). apply Nat.leb_gt in EB. destruct AT as (B & SR & LB & PB & LLB).
        apply bindI in E as (kb & -> & E). cbn [bind]. apply bindI in E as (sz & E2 & E). unfold ls_nodeSize, ls_nodeSize32 in *.
        destruct (distance32 _ _ _ _ (proj1 SR) LB PB E2) as (-> & SZ). cbn [bind].
        apply bindI in E as ((q & ok) & E3 & E). assert (PLL : pos < length (ls_label ls)) by lia. rewrite (search32 _ _ _ _ _ LL PLL SZ E3). cbn [bind]. destruct ok; cbn [negb] in *.
        2: { apply label_search_no in E3. apply bindI in E as (it1 & E4 & E). apply pleftnext_sim in E4 as (-> & D1); auto; [|lia|].
             - cbn [bind]. split; [exact E|]. apply OkI in E. subst r. exact D1.
             - destruct pos as [|pos]; [|lia]. pose proof (size_pos _ _ _ (proj1 SR) PB E2). lia. }
        apply label_search_lt in E3. apply bindI in E as (it1 & E4 & E). apply pappend_sim in E4 as (-> & I1 & D1 & L1 & LT); auto. cbn [bind].
        apply bindI in E as (h & -> & E). cbn [bind]. rewrite (add32_small _ 1) by fit. destruct h; cbn [negb] in *.
        2: { apply pcompare_sim; auto. lia. }
        apply bindI in E as (m & E4 & E). apply pchild_sim in E4 as (-> & N3). cbn [bind]. apply bindI in E as (q2 & E4 & E).
        destruct (firstLabel32 ls m q2 (es_lim _ L) N3 E4) as (-> & AT2). cbn [bind]. rewrite (add32_small _ 1), Nat.add_1_r by (apply H_lim; lia).
        apply IH; auto using pinv_level; [cbn; unfold pkey in D1; lia|]. eapply fits_le; [|apply (K_short key (K - 1) SK)]; lia.
Unshelve. all: exact (fun _ => 0%N).
Qed.
Lemma p_seek_same it key r : shortkey key -> pinv it -> p_key it = [] -> p_seek ls it key = Ok r -> p_seek32 ls it key = Ok r /\ pinv (fst r) /\ pkey (fst r).
Proof.
  intros SK I Z E. unfold p_seek, p_seek32 in *. apply bindI in E as (p & E1 & E). destruct (firstLabel32 ls _ p (es_lim _ L) (pi_node _ I) E1) as (-> & AT2). cbn [bind].
  rewrite levels32. apply p_seek_sim; auto using pinv_level; [cbn; rewrite Z; cbn; lia|apply I|apply I].
Qed.

Lemma p_value_same it x : pinv it -> fits32 (length (vv_bytes (ls_values ls))) -> p_Value ls it = Ok x -> p_Value32 ls it = Ok x.
Proof.
  intros I F E. unfold p_Value, p_Value32 in *. apply bindI in E as (p & E0 & E). rewrite E0. cbn [bind]. pose proof (idx_all _ _ _ _ (pi_pos _ I) E0) as P. apply bindI in E as (vp & E1 & E).
  apply (ls_suffixPos32_ok _ _ _ (es_lim _ L) P) in E1 as (-> & _). cbn [bind]. now apply value_get32.
Qed.
Lemma p_compare_same it key x : pinv it -> shortkey key -> p_compare ls it key = Ok x -> p_compare32 ls it key = Ok x.
Proof.
  intros I SK E. unfold p_compare, p_compare32 in *. apply bindI in E as (ik & -> & E). cbn [bind]. destruct (Nat.ltb (length key) _); auto. destruct (Nat.eqb _ (length key)); auto.
  apply bindI in E as (rest & E1 & E). rewrite E1. cbn [bind]. assert (RL : length rest <= length key).
  { unfold slice_from in E1. destruct (Nat.leb _ _); [|discriminate]. apply OkI in E1. subst rest. rewrite skipn_length. lia. }
  cbv zeta in *. destruct (negb _); auto. destruct (Nat.ltb_spec (length rest) (length ik)); auto. destruct (_ && _); auto.
  apply bindI in E as (p & E2 & E). rewrite E2. cbn [bind]. pose proof (idx_all _ _ _ _ (pi_pos _ I) E2) as P. apply bindI in E as (sp & E3 & E).
  apply (ls_suffixPos32_ok _ _ _ (es_lim _ L) P) in E3 as (-> & L1). cbn [bind]. unfold shortkey in SK. rewrite w32_small by fit.
  rewrite compare32 by (auto; try apply L; unfold shortkey; lia). exact E.
Qed.

Lemma pfirstroot_sim it it' : pinv it -> p_setToFirst ls it = Ok it' -> p_setToFirst32 ls it = Ok it' /\ pinv it' /\ pkey it'.
Proof.
  intros I E. split; [exact E|]. unfold p_setToFirst in E. apply bindI in E as (ps & E1 & E). apply bindI in E as (l & E2 & E). apply OkI in E. subst it'.
  apply upd_inv in E1 as (L1 & ->). apply idx_lt in E2. split; [|unfold pkey; cbn; nia]. constructor; cbn; try apply I.
  - rewrite set_nth_len. apply I.
  - apply set_nth_all; auto. apply I.
Qed.
Lemma plastroot_sim it it' : pinv it -> p_setToLast ls it = Ok it' -> p_setToLast32 ls it = Ok it' /\ pinv it' /\ pkey it'.
Proof.
  intros I E. unfold p_setToLast, p_setToLast32 in *. apply bindI in E as (p & E0 & E). apply plast_sim in E0; [|cbn; lia]. rewrite E0. cbn [bind]. split; [exact E|].
  apply bindI in E as (ps & E1 & E). apply bindI in E as (l & E2 & E). apply OkI in E. subst it'.
  apply upd_inv in E1 as (L1 & ->). apply idx_lt in E2. split; [|unfold pkey; cbn; nia]. constructor; cbn; try apply I.
  - rewrite set_nth_len. apply I.
  - apply set_nth_all; auto. apply I.
Qed.
End Sparse.

(* ------------------------------------------------------------------ *)
(** ** Iterators *)

Section Iter.
Variable s : surf.
Hypothesis LD : denlim (s_ld s).
Hypothesis LS : splim (s_ls s).

Definition iinv (it : iter) : Prop := dok (s_ld s) (i_dense it) /\ pinv (s_ls s) (i_sparse it) /\ pkey (i_sparse it).

Lemma pass_inv it : iinv it -> iinv (passToSparse it).
Proof.
  intros (D & P & Q). split; [exact D|]. split; [|exact Q]. destruct D as (D & _). apply pinv_start; auto; [|apply D].
  pose proof (di_node _ _ D). cbn. lia.
Qed.
Lemma reset_inv it : iinv it -> iinv (it_reset it).
Proof.
  intros ((D & _) & P & Q). split; [|split; [now apply pinv_reset|unfold pkey; cbn; lia]]. split; [now apply dinv_reset|]. intros _. unfold dkey. cbn. lia.
Qed.
Lemma sparse_sim it it' f f32 : iinv it ->
  (forall p', f (i_sparse it) = Ok p' -> f32 (i_sparse it) = Ok p' /\ pinv (s_ls s) p' /\ pkey p') ->
  it_sparse it f = Ok it' -> it_sparse it f32 = Ok it' /\ iinv it'.
Proof.
  intros (D & P & Q) F E. unfold it_sparse in *. apply bindI in E as (p & E1 & E). apply F in E1 as (-> & P1 & Q1). cbn [bind]. split; [exact E|].
  apply OkI in E. subst it'. split; auto.
Qed.
Lemma incr_sim it it' : iinv it -> incrDense s it = Ok it' -> incrDense32 s it = Ok it' /\ iinv it'.
Proof.
  intros I E. pose proof I as ((D & DK) & P & Q). unfold incrDense, incrDense32 in *. destruct (d_valid (i_dense it)); cbn [negb] in *; [|apply OkI in E; subst it'; auto].
  apply bindI in E as (d & E1 & E). apply d_next_sim in E1 as (-> & D1); auto. cbn [bind]. cbv zeta in *.
  assert (I1 : iinv (mkIter d (i_sparse it))) by (split; auto).
  destruct (d_valid d); cbn [negb] in *; [|apply OkI in E; subst it'; auto]. destruct (d_left d); [apply OkI in E; subst it'; auto|].
  eapply sparse_sim; [now apply pass_inv| |exact E]. intros p' EP. destruct (pass_inv _ I1) as (_ & P2 & Q2). now apply pleft_sim.
Qed.
Lemma decr_sim it it' : iinv it -> decrDense s it = Ok it' -> decrDense32 s it = Ok it' /\ iinv it'.
Proof.
  intros I E. pose proof I as (D & P & Q). unfold decrDense, decrDense32 in *. destruct (d_valid (i_dense it)); cbn [negb] in *; [|apply OkI in E; subst it'; auto].
  apply bindI in E as (d & E1 & E). apply d_prev_sim in E1 as (-> & D1); auto. cbn [bind]. cbv zeta in *.
  assert (I1 : iinv (mkIter d (i_sparse it))) by (split; auto).
  destruct (d_valid d); cbn [negb] in *; [|apply OkI in E; subst it'; auto]. destruct (d_right d); [apply OkI in E; subst it'; auto|].
  eapply sparse_sim; [now apply pass_inv| |exact E]. intros p' EP. destruct (pass_inv _ I1) as (_ & P2 & Q2). now apply pright_sim.
Qed.
Lemma it_next_sim it it' : iinv it -> it_next s it = Ok it' -> it_next32 s it = Ok it' /\ iinv it'.
Proof.
  intros I E. pose proof I as (D & P & Q). unfold it_next, it_next32 in *. destruct (p_valid (i_sparse it)); [|now apply incr_sim].
  apply bindI in E as (p & E1 & E). apply pnext_sim in E1 as (-> & P1 & Q1); auto. cbn [bind]. cbv zeta in *.
  assert (I1 : iinv (mkIter (i_dense it) p)) by (split; auto). destruct (p_valid p); [apply OkI in E; subst it'; auto|now apply incr_sim].
Qed.
Lemma it_prev_sim it it' : iinv it -> it_prev s it = Ok it' -> it_prev32 s it = Ok it' /\ iinv it'.
Proof.
  intros I E. pose proof I as (D & P & Q). unfold it_prev, it_prev32 in *. destruct (p_valid (i_sparse it)); [|now apply decr_sim].
  apply bindI in E as (p & E1 & E). apply pprev_sim in E1 as (-> & P1 & Q1); auto. cbn [bind]. cbv zeta in *.
  assert (I1 : iinv (mkIter (i_dense it) p)) by (split; auto). destruct (p_valid p); [apply OkI in E; subst it'; auto|now apply decr_sim].
Qed.
Lemma it_seek_sim it key r : shortkey key -> Forall (fun b => b < 256) key -> iinv it -> it_seek s it key = Ok r -> it_seek32 s it key = Ok r /\ iinv (fst r).
Proof.
  intros SK W I0 E. unfold it_seek, it_seek32 in *. cbv zeta in *. apply reset_inv in I0. destruct (_ && _); [apply OkI in E; subst r; auto|].
  pose proof I0 as ((D & DK) & P & Q). apply bindI in E as ((d & fp) & E1 & E). apply d_seek_same in E1 as (-> & D1); auto. cbn [bind fst] in *.
  assert (I1 : iinv (mkIter d (i_sparse (it_reset it)))) by (split; auto). set (it1 := mkIter d _) in *.
  destruct (_ || _); [apply OkI in E; subst r; auto|]. destruct (d_search d); cbn [negb] in *.
  - destruct (d_left d); cbn [negb] in *; [discriminate|]. apply bindI in E as (it2 & E2 & E).
    assert (A : it_sparse (passToSparse it1) (p_moveLeft32 (s_ls s)) = Ok it2 /\ iinv it2).
    { eapply sparse_sim; [now apply pass_inv| |exact E2]. intros p' EP. destruct (pass_inv _ I1) as (_ & P2 & Q2). now apply pleft_sim. }
    destruct A as (-> & I2). cbn [bind]. split; [exact E|]. apply OkI in E. subst r. exact I2.
  - pose proof (pass_inv _ I1) as (_ & P2 & Q2). apply bindI in E as ((p & fp2) & E2 & E).
    apply p_seek_same in E2 as (-> & P3 & Q3); auto. cbn [bind fst] in *. apply bindI in E as (it2 & E3 & E).
    assert (I2 : iinv (mkIter d p)) by (split; auto).
    assert (A : (if negb (p_valid p) then incrDense32 s (mkIter d p) else Ok (mkIter d p)) = Ok it2 /\ iinv it2).
    { destruct (p_valid p); cbn [negb] in *; [apply OkI in E3; subst it2; auto|now apply incr_sim]. }
    destruct A as (-> & I3). cbn [bind]. split; [exact E|]. apply OkI in E. subst r. exact I3.
Qed.
Lemma it_first_sim it it' : iinv it -> it_seekToFirst s it = Ok it' -> it_seekToFirst32 s it = Ok it' /\ iinv it'.
Proof.
  intros I0 E. unfold it_seekToFirst, it_seekToFirst32 in *. cbv zeta in *. apply reset_inv in I0. pose proof I0 as ((D & DK) & P & Q).
  destruct (Nat.ltb 0 (ld_height _)).
  - apply bindI in E as (d & E1 & E). apply first_sim in E1 as (-> & D1 & K2); auto. cbn [bind]. apply bindI in E as (d2 & E2 & E).
    apply moveLeft_sim in E2 as (-> & D3 & K3); auto. cbn [bind]. assert (I1 : iinv (mkIter d2 (i_sparse (it_reset it)))) by (split; auto; split; auto).
    destruct (d_left d2); [apply OkI in E; subst it'; auto|].
    eapply sparse_sim; [now apply pass_inv| |exact E]. intros p' EP. destruct (pass_inv _ I1) as (_ & P2 & Q2). now apply pleft_sim.
  - destruct (Nat.ltb 0 (ls_height _)); [|apply OkI in E; subst it'; auto]. eapply sparse_sim; [exact I0| |exact E]. intros p' EP. cbv beta in *.
    apply bindI in EP as (p & E1 & EP). apply pfirstroot_sim in E1 as (-> & P1 & Q1); auto. cbn [bind]. now apply pleft_sim.
Qed.
Lemma it_last_sim it it' : iinv it -> it_seekToLast s it = Ok it' -> it_seekToLast32 s it = Ok it' /\ iinv it'.
Proof.
  intros I0 E. unfold it_seekToLast, it_seekToLast32 in *. cbv zeta in *. apply reset_inv in I0. pose proof I0 as ((D & DK) & P & Q).
  destruct (Nat.ltb 0 (ld_height _)).
  - apply bindI in E as (d & E1 & E). apply last_sim in E1 as (-> & D1 & K2); auto. cbn [bind]. apply bindI in E as (d2 & E2 & E).
    apply moveRight_sim in E2 as (-> & D3 & K3); auto. cbn [bind]. assert (I1 : iinv (mkIter d2 (i_sparse (it_reset it)))) by (split; auto; split; auto).
    destruct (d_right d2); [apply OkI in E; subst it'; auto|].
    eapply sparse_sim; [now apply pass_inv| |exact E]. intros p' EP. destruct (pass_inv _ I1) as (_ & P2 & Q2). now apply pright_sim.
  - destruct (Nat.ltb 0 (ls_height _)); [|apply OkI in E; subst it'; auto]. eapply sparse_sim; [exact I0| |exact E]. intros p' EP. cbv beta in *.
    apply bindI in EP as (p & E1 & EP). apply plastroot_sim in E1 as (-> & P1 & Q1); auto. cbn [bind]. now apply pright_sim.
Qed.
Lemma it_compare_sim it key x : iinv it -> shortkey key -> it_compare s it key = Ok x -> it_compare32 s it key = Ok x.
Proof.
  intros (D & P & Q) SK E. unfold it_compare, it_compare32 in *. apply bindI in E as (c & E1 & E). apply d_compare_same in E1; auto. rewrite E1. cbn [bind].
  destruct (_ || _); auto. now apply p_compare_same.
Qed.
Lemma it_value_sim it x : iinv it -> fits32 (length (vv_bytes (ld_values (s_ld s)))) -> fits32 (length (vv_bytes (ls_values (s_ls s)))) ->
  it_value s it = Ok x -> it_value32 s it = Ok x.
Proof.
  intros (D & P & Q) F1 F2 E. unfold it_value, it_value32 in *. destruct (d_isComplete _); [now apply d_value_same|now apply p_value_same].
Qed.
Lemma new_sim : newIterator32 s = newIterator s.
Proof. unfold newIterator32, newIterator, p_init32, p_init. now rewrite levels32. Qed.
Lemma zeros_below n : below (repeat 0 n).
Proof. intros i x E. apply nth_error_In, repeat_spec in E. lia. Qed.
Lemma new_inv : 0 < length (ls_label (s_ls s)) -> iinv (newIterator s).
Proof.
  intros NL. pose proof (H_fits 1 H1) as F1. split; [|split].
  - split; [|cbn; discriminate]. constructor; cbn; auto using zeros_below.
    + now rewrite repeat_length.
    + apply Forall_forall. intros x E. apply repeat_spec in E. subst x. apply lim31_0.
    + reflexivity.
    + eapply fits_le; [|exact F1]. lia.
  - constructor; cbn; auto using zeros_below.
    + rewrite repeat_length. apply LS.
    + apply Forall_forall. intros x E. apply repeat_spec in E. now subst x.
    + lia.
    + eapply fits_le; [|exact F1]. lia.
  - unfold pkey. cbn. lia.
Qed.
Lemma overlap_sim start stop b x : 0 < length (ls_label (s_ls s)) -> shortkey start -> Forall (fun b => b < 256) start -> shortkey stop ->
  hasOverlap s start stop b = Ok x -> hasOverlap32 s start stop b = Ok x.
Proof.
  intros NL S1 W S2 E. unfold hasOverlap, hasOverlap32 in *. destruct (_ && _); auto. rewrite new_sim. apply bindI in E as ((it & fp) & E1 & E).
  apply it_seek_sim in E1 as (-> & I1); auto using new_inv. cbn [bind fst] in *. destruct (it_valid it); cbn [negb] in *; auto.
  apply bindI in E as (c & E1 & E). apply it_compare_sim in E1; auto. rewrite E1. exact E.
Qed.
End Iter.
End Bounds.
