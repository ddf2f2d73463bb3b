(** * Proofs about suffix, label, value and prefix vectors. *)
From Verif Require Import Base BitsModel BitsFacts Select64 VecModel VecProofs.
Ltac Zify.zify_post_hook ::= Z.div_mod_to_equations.

(** ** Suffix read *)
Lemma tb_ones n i : n <= 64 -> tb (sub64 (shlv 1 (N.of_nat n)) 1) i = Nat.ltb i n.
Proof.
  intros Hn.
  assert (E : sub64 (shlv 1 (N.of_nat n)) 1 = N.ones (N.of_nat n)).
  { unfold shlv. destruct (N.ltb_spec (N.of_nat n) 64).
    - unfold shl64. rewrite N.shiftl_1_l. rewrite w64_small by (unfold two64; apply N.pow_lt_mono_r; lia).
      rewrite sub64_small.
      + unfold N.ones. rewrite N.shiftl_1_l. lia.
      + unfold two64. apply N.pow_lt_mono_r; lia.
      + pose proof (N.pow_nonzero 2 (N.of_nat n)). lia.
    - replace n with 64 by lia. reflexivity. }
  rewrite E. unfold tb. bc.
  - apply N.ones_spec_low. lia.
  - apply N.ones_spec_high. lia.
Qed.

Lemma tb_shlv x n i : tb (shlv x (N.of_nat n)) i = (Nat.leb n i && Nat.ltb i 64 && tb x (i - n)).
Proof.
  unfold shlv. destruct (N.ltb_spec (N.of_nat n) 64).
  - apply tb_shl64.
  - unfold tb at 1. rewrite N.bits_0. bc; reflexivity.
Qed.

(** Entry [i] of fixed-width fields: the [len] bits from bit [i*len]. *)
Lemma suffix_read_spec v B i :
  bv_rep (xv_bv v) B -> 0 < xv_suffixLen v <= 64 -> i * xv_suffixLen v + xv_suffixLen v <= length B ->
  exists r, suffix_read v i = Ok r /\
    forall q, tb r q = (Nat.ltb q (xv_suffixLen v) && nth (i * xv_suffixLen v + q) B false).
Proof.
  intros (N1 & N2 & Hrep) Hlen HB. unfold suffix_read.
  set (len := xv_suffixLen v) in *.
  pose proof (numWords_bound (length B)) as [W1 W2].
  remember (i * len) as P eqn:EP. clear EP.
  assert (Hw : P / 64 < length (bv_bits (xv_bv v))) by lia.
  rewrite idx_nth by exact Hw. cbn [bind].
  set (w := nth (P / 64) (bv_bits (xv_bv v)) 0%N).
  assert (Hwhi : forall q, 64 <= q -> tb w q = false).
  { intros q Hq. apply (tb_high w 64); auto. apply words_ok_nth, Hrep. }
  destruct (Nat.ltb_spec 64 (P mod 64 + len)) as [Hs|Hs].
  - rewrite idx_nth by lia. cbn [bind]. eexists. split; [reflexivity|].
    intros q. rewrite tb_lor, tb_land, tb_shr64, tb_ones by lia.
    rewrite tb_shlv, tb_land, tb_ones by lia.
    destruct (Nat.lt_ge_cases q (64 - P mod 64)) as [Hq|Hq].
    + unfold w. rewrite (rep_word_tb _ B (P / 64) (q + P mod 64) Hrep) by lia. bc.
      rewrite ?orb_false_r. f_equal. lia.
    + destruct (Nat.lt_ge_cases q len) as [Hql|Hql].
      * rewrite Hwhi by lia. rewrite (rep_word_tb _ B (S (P / 64)) (q - (64 - P mod 64)) Hrep) by lia.
        bc. f_equal. lia.
      * bc; reflexivity.
  - eexists. split; [reflexivity|]. intros q. rewrite tb_land, tb_shr64, tb_ones by lia.
    destruct (Nat.lt_ge_cases q len) as [Hql|Hql].
    + unfold w. rewrite (rep_word_tb _ B (P / 64) (q + P mod 64) Hrep) by lia. bc. f_equal. lia.
    + bc; reflexivity.
Qed.

(** ** Label search *)
Lemma indexByte_Some l k i : indexByte l k = Some i ->
  i < length l /\ nth i l 0 = k /\ forall j, j < i -> nth j l 0 <> k.
Proof.
  revert i. induction l as [|x l IH]; intros i H; cbn in H; [discriminate|].
  destruct (Nat.eqb_spec x k) as [->|Hne].
  - inversion H; subst. cbn. split; [lia|]. split; [auto|lia].
  - destruct (indexByte l k) as [i'|] eqn:E; [|discriminate]. inversion H; subst.
    destruct (IH i' eq_refl) as (H1 & H2 & H3). cbn. split; [lia|]. split; auto.
    intros [|j] Hj; auto. apply H3. lia.
Qed.

Lemma indexByte_None l k : indexByte l k = None -> ~ In k l.
Proof.
  induction l as [|x l IH]; intros H; cbn in *; auto.
  destruct (Nat.eqb_spec x k) as [->|Hne]; [discriminate|].
  destruct (indexByte l k); [discriminate|]. intros [E|E]; [congruence|]. now apply IH.
Qed.

Lemma sort_search_spec (f : nat -> res bool) (g : nat -> bool) n :
  (forall i, i < n -> f i = Ok (g i)) -> (forall i j, i <= j < n -> g i = true -> g j = true) ->
  forall fuel i j, i <= j <= n -> j - i <= fuel ->
    (forall q, q < i -> g q = false) -> (forall q, j <= q < n -> g q = true) ->
  exists r, sort_search fuel f i j = Ok r /\ r <= n /\
    (forall q, q < r -> g q = false) /\ (forall q, r <= q < n -> g q = true).
Proof.
  intros Hf Hm. induction fuel as [|fuel IH]; intros i j Hij Hfu H1 H2; cbn [sort_search].
  - destruct (Nat.ltb_spec i j); [lia|]. exists i. split; [auto|]. split; [lia|]. split; auto.
    intros q Hq. apply H2. lia.
  - destruct (Nat.ltb_spec i j).
    + rewrite Hf by lia. cbn [bind]. destruct (g ((i + j) / 2)) eqn:E.
      * apply IH; auto; try lia. intros q Hq. destruct (Nat.lt_ge_cases q j); [|apply H2; lia].
        apply (Hm ((i + j) / 2)); auto; lia.
      * apply IH; auto; try lia. intros q Hq. destruct (g q) eqn:Eq; auto.
        assert (g ((i + j) / 2) = true) by (apply (Hm q); auto; lia). congruence.
    + exists i. split; [auto|]. split; [lia|]. split; auto. intros q Hq. apply H2. lia.
Qed.

(** ** Little-endian 32-bit numbers *)
Definition fits32 (n : nat) : Prop := (N.of_nat n < 4294967296)%N.

Lemma get32_put32 n rest : fits32 n -> get32 (put32 n ++ rest) = Ok n.
Proof.
  intros H. unfold fits32 in H. cbn [put32 app get32]. f_equal.
  assert (n / 256 / 256 / 256 < 256) by lia. lia.
Qed.

(** ** Prefix vector *)
Definition nonempty (p : bytes) : bool := match p with [] => false | _ => true end.

Lemma prefix_offsets_length ps off : length (prefix_offsets ps off) = 4 * length ps.
Proof. revert off. induction ps as [|p ps IH]; intros off; [reflexivity|]. cbn [prefix_offsets length]. rewrite app_length, IH. cbn [put32 length]. lia. Qed.

Lemma prefix_offsets_skip ps : forall off i, i < length ps ->
  exists rest, skipn (i * 4) (prefix_offsets ps off) = put32 (off + length (concat (firstn i ps))) ++ rest.
Proof.
  induction ps as [|p ps IH]; intros off i Hi; cbn [length] in Hi; [lia|].
  destruct i as [|i].
  - exists (prefix_offsets ps (off + length p)). cbn [firstn concat length Nat.mul skipn prefix_offsets].
    now rewrite Nat.add_0_r.
  - destruct (IH (off + length p) i) as [rest E]; [lia|]. exists rest.
    cbn [prefix_offsets]. replace (S i * 4) with (length (put32 off) + i * 4) by (cbn [put32 length]; lia).
    rewrite skipn_app, skipn_all2 by lia.
    replace (length (put32 off) + i * 4 - length (put32 off)) with (i * 4) by lia.
    cbn [app]. rewrite E. cbn [firstn concat]. rewrite app_length. do 2 f_equal. lia.
Qed.

(** A prefix vector represents the list of node prefixes (empty = none). *)
Definition pv_rep (v : prefixVec) (P : list bytes) : Prop :=
  (exists pad, rv_rep rankSparseBlockSize (pv_has v) (map nonempty P ++ repeat false pad)) /\
  pv_offsets v = prefix_offsets (filter nonempty P) 0 /\
  pv_data v = concat (filter nonempty P) /\
  fits32 (length (concat P)).

Lemma concat_filter_nonempty P : concat (filter nonempty P) = concat P.
Proof. induction P as [|[|b p] P IH]; cbn; auto. now rewrite IH. Qed.

Lemma cntl_map_filter {A} (f : A -> bool) (l : list A) pad i :
  i <= length l -> cntl (map f l ++ pad) i = length (filter f (firstn i l)).
Proof.
  revert i. induction l as [|x l IH]; intros i Hi; cbn [length] in Hi.
  - replace i with 0 by lia. reflexivity.
  - destruct i as [|i]; [reflexivity|]. unfold cntl. rewrite cnt_shift. cbn [map app nth firstn filter].
    fold (cntl (map f l ++ pad) i). rewrite IH by lia. destruct (f x); reflexivity.
Qed.

Lemma filter_nth {A} (f : A -> bool) (l : list A) i d :
  i < length l -> f (nth i l d) = true -> nth (length (filter f (firstn i l))) (filter f l) d = nth i l d /\
    length (filter f (firstn i l)) < length (filter f l) /\
    firstn (length (filter f (firstn i l))) (filter f l) = filter f (firstn i l).
Proof.
  revert i. induction l as [|x l IH]; intros i Hi Hf; cbn [length] in Hi; [lia|].
  destruct i as [|i]; cbn [nth firstn filter length] in *.
  - rewrite Hf. cbn. split; [auto|]. split; [lia|auto].
  - destruct (IH i) as (I1 & I2 & I3); [lia|auto|]. destruct (f x); cbn [length nth firstn].
    + split; [auto|]. split; [lia|]. now rewrite I3.
    + auto.
Qed.

Lemma slice_concat (ps : list bytes) i :
  i < length ps ->
  slice (concat ps) (length (concat (firstn i ps))) (length (concat (firstn (S i) ps))) = Ok (nth i ps []).
Proof.
  intros Hi. unfold slice.
  assert (E : concat ps = concat (firstn i ps) ++ nth i ps [] ++ concat (skipn (S i) ps)).
  { revert i Hi. induction ps as [|p ps IH]; intros [|i] Hi; cbn [length] in Hi; try lia.
    - reflexivity.
    - cbn [firstn concat nth skipn]. rewrite <- app_assoc. rewrite <- IH by lia. reflexivity. }
  assert (E2 : concat (firstn (S i) ps) = concat (firstn i ps) ++ nth i ps []).
  { clear E. revert i Hi. induction ps as [|p ps IH]; intros [|i] Hi; cbn [length] in Hi; try lia.
    - cbn. now rewrite app_nil_r.
    - change (firstn (S (S i)) (p :: ps)) with (p :: firstn (S i) ps).
      change (firstn (S i) (p :: ps)) with (p :: firstn i ps).
      cbn [concat nth]. rewrite IH by lia. now rewrite app_assoc. }
  rewrite E2, E, !app_length.
  match goal with |- context [Nat.leb ?a ?b && Nat.leb ?c ?d] => destruct (Nat.leb_spec a b); [|lia]; destruct (Nat.leb_spec c d); [|lia] end.
  cbn [andb]. f_equal.
  rewrite skipn_app, skipn_all, Nat.sub_diag. cbn [skipn app].
  replace (length (concat (firstn i ps)) + length (nth i ps []) - length (concat (firstn i ps))) with (length (nth i ps [])) by lia.
  rewrite firstn_app, Nat.sub_diag, firstn_all. cbn [firstn]. apply app_nil_r.
Qed.

Lemma concat_firstn_le (ps : list bytes) i : length (concat (firstn i ps)) <= length (concat ps).
Proof.
  rewrite <- (firstn_skipn i ps) at 2. rewrite concat_app, app_length. lia.
Qed.

Lemma fits32_le n m : n <= m -> fits32 m -> fits32 n.
Proof. unfold fits32. lia. Qed.

Theorem getPrefix_correct v P i : pv_rep v P -> i < length P -> getPrefix v i = Ok (nth i P []).
Proof.
  intros ([pad Hrv] & Ho & Hd & Hfit) Hi. unfold getPrefix, rv_isSet.
  set (B := map nonempty P ++ repeat false pad) in *.
  assert (HB : i < length B) by (unfold B; rewrite app_length, map_length; lia).
  assert (Hnth : nth i B false = nonempty (nth i P [])).
  { unfold B. rewrite app_nth1 by (now rewrite map_length).
    change false with (nonempty []). apply map_nth. }
  rewrite (bv_isSet_spec _ B) by (auto; apply Hrv). rewrite Hnth. cbn [bind].
  destruct (nonempty (nth i P [])) eqn:Hne; cbn [negb].
  2: { destruct (nth i P []); [reflexivity|discriminate]. }
  unfold rankSparse. rewrite (rank_at_spec rankSparseBlockSize _ B) by (auto; unfold rankSparseBlockSize; lia).
  cbn [bind]. rewrite Nat.add_1_r.
  assert (Hr : cntl B (S i) = S (length (filter nonempty (firstn i P)))).
  { unfold cntl. cbn [cnt]. rewrite Hnth. fold (cntl B i). unfold B. rewrite cntl_map_filter by lia. lia. }
  rewrite Hr. cbn [Nat.sub]. rewrite Nat.sub_0_r.
  set (j := length (filter nonempty (firstn i P))).
  destruct (filter_nth nonempty P i [] Hi Hne) as (F1 & F2 & F3). fold j in F1, F2, F3.
  rewrite Ho, Hd. unfold slice_from. rewrite prefix_offsets_length.
  destruct (Nat.leb_spec (j * 4) (4 * length (filter nonempty P))); [|lia]. cbn [bind].
  destruct (prefix_offsets_skip (filter nonempty P) 0 j F2) as [rest E]. rewrite E. rewrite Nat.add_0_l.
  rewrite <- concat_filter_nonempty in Hfit.
  rewrite get32_put32.
  2: { eapply fits32_le; [|exact Hfit]. apply concat_firstn_le. }
  cbn [bind].
  assert (Hend : (if Nat.ltb ((j + 1) * 4) (4 * length (filter nonempty P))
     then eo <- (if Nat.leb ((j + 1) * 4) (4 * length (filter nonempty P))
                 then Ok (skipn ((j + 1) * 4) (prefix_offsets (filter nonempty P) 0)) else Panic) ;; get32 eo
     else Ok (length (concat (filter nonempty P)))) = Ok (length (concat (firstn (S j) (filter nonempty P))))).
  { destruct (Nat.ltb_spec ((j + 1) * 4) (4 * length (filter nonempty P))).
    - destruct (Nat.leb_spec ((j + 1) * 4) (4 * length (filter nonempty P))); [|lia]. cbn [bind].
      rewrite Nat.add_1_r in *.
      destruct (prefix_offsets_skip (filter nonempty P) 0 (S j)) as [rest' E']; [lia|]. rewrite E'. rewrite Nat.add_0_l.
      apply get32_put32. eapply fits32_le; [|exact Hfit]. apply concat_firstn_le.
    - rewrite firstn_all2 by lia. reflexivity. }
  rewrite Hend. cbn [bind]. rewrite slice_concat by auto. now rewrite F1.
Qed.

Lemma prefixVec_init_spec (bitsL : list (list N)) (nums : list nat) (prefixes : list (list bytes)) P pad :
  Forall2 level_ok bitsL (firstn (length bitsL) nums) ->
  concat_levels bitsL nums ++ repeat false (nsum (skipn (length bitsL) nums)) = map nonempty P ++ repeat false pad ->
  concat prefixes = filter nonempty P -> fits32 (length (concat P)) ->
  exists v, prefixVec_init bitsL nums prefixes = Ok v /\ pv_rep v P.
Proof.
  intros HF HB Hp Hfit. unfold prefixVec_init, rankVectorSparse_init.
  destruct (rankVector_init_spec rankSparseBlockSize bitsL nums) as (rv & E & R); auto; try (unfold rankSparseBlockSize; lia).
  rewrite E. cbn [bind]. eexists. split; [reflexivity|].
  split; [|cbn [pv_offsets pv_data]; rewrite Hp; auto]. cbn [pv_has]. exists pad. now rewrite <- HB.
Qed.

(** CheckPrefix: does the node's prefix occur in the key at [depth]? *)
Lemma checkPrefix_spec v P key depth i :
  pv_rep v P -> i < length P -> depth <= length key ->
  checkPrefix v key depth i = Ok
    (if is_prefixb (nth i P []) (skipn depth key) then (length (nth i P []), true) else (0, false)).
Proof.
  intros HP Hi Hd. unfold checkPrefix. rewrite (getPrefix_correct v P i HP Hi). cbn [bind].
  set (p := nth i P []). destruct (Nat.eqb_spec (length p) 0) as [E|E].
  { destruct p; [|discriminate]. reflexivity. }
  destruct (Nat.ltb_spec (length key) (depth + length p)) as [Hl|Hl].
  - destruct (is_prefixb p (skipn depth key)) eqn:Ep; [|reflexivity].
    apply is_prefixb_iff in Ep as [c Ec]. apply (f_equal (@length nat)) in Ec.
    rewrite skipn_length, app_length in Ec. lia.
  - unfold slice. destruct (Nat.leb_spec depth (depth + length p)); [|lia].
    destruct (Nat.leb_spec (depth + length p) (length key)); [|lia]. cbn [andb bind].
    replace (depth + length p - depth) with (length p) by lia.
    assert (Hs : forall (a b : bytes), beqb (firstn (length a) b) a = is_prefixb a b \/ length b < length a).
    { induction a as [|x a IH]; intros [|y b]; cbn [length firstn beqb is_prefixb]; auto; try (right; lia).
      rewrite (Nat.eqb_sym y x). destruct (Nat.eqb x y); cbn [andb]; auto.
      destruct (IH b); [left|right]; auto; lia. }
    destruct (Hs p (skipn depth key)) as [->|Hs2]; [now destruct (is_prefixb _ _)|]. rewrite skipn_length in Hs2. lia.
Qed.
