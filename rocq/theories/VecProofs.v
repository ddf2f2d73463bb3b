(** * Proofs about the bit vectors: concatenation, rank, select, distances. *)
From Verif Require Import Base BitsModel BitsFacts Select64 VecModel.
Ltac Zify.zify_post_hook ::= Z.div_mod_to_equations.

Lemma Forall2_length {A B} (R : A -> B -> Prop) l l' : Forall2 R l l' -> length l = length l'.
Proof. induction 1; cbn; auto. Qed.

(** Case split on every comparison in the goal. *)
Ltac bc := repeat (match goal with
  | |- context [Nat.ltb ?a ?b] => destruct (Nat.ltb_spec a b)
  | |- context [Nat.leb ?a ?b] => destruct (Nat.leb_spec a b)
  | |- context [Nat.eqb ?a ?b] => destruct (Nat.eqb_spec a b) end;
  cbn [andb orb negb]; try lia); rewrite ?andb_true_r, ?andb_false_r, ?orb_false_r, ?orb_true_r.

(** Bit [i] of a word array, counting from bit 0 of word 0. *)
Definition gbit (bs : list N) (i : nat) : bool := tb (nth (i / 64) bs 0%N) (i mod 64).
Definition words_ok (bs : list N) : Prop := Forall (fun w => (w < two64)%N) bs.
Definition bits_of (bs : list N) (n : nat) : list bool := map (gbit bs) (seq 0 n).
(** Set bits of a bit string below a position. *)
Definition cntl (B : list bool) (n : nat) : nat := cnt (fun i => nth i B false) n.

Lemma bits_of_length bs n : length (bits_of bs n) = n.
Proof. unfold bits_of. now rewrite map_length, seq_length. Qed.

Lemma nth_map_seq {A} (f : nat -> A) n i d : i < n -> nth i (map f (seq 0 n)) d = f i.
Proof.
  intros H. rewrite (nth_indep _ d (f 0)) by (rewrite map_length, seq_length; lia).
  rewrite map_nth. now rewrite seq_nth by lia.
Qed.

Lemma nth_bits_of bs n i : nth i (bits_of bs n) false = if Nat.ltb i n then gbit bs i else false.
Proof.
  destruct (Nat.ltb_spec i n).
  - apply nth_map_seq; auto.
  - apply nth_overflow. rewrite bits_of_length. lia.
Qed.

Lemma words_ok_nth bs i : words_ok bs -> (nth i bs 0%N < two64)%N.
Proof.
  intros H. destruct (Nat.lt_ge_cases i (length bs)).
  - apply (proj1 (Forall_nth _ bs) H); auto.
  - rewrite nth_overflow by lia. reflexivity.
Qed.

Lemma idx_nth (bs : list N) i : i < length bs -> idx bs i = Ok (nth i bs 0%N).
Proof. intros H. apply idx_Ok. apply nth_error_nth'; auto. Qed.

Lemma idx_in {A} (l : list A) i d : i < length l -> idx l i = Ok (nth i l d).
Proof. intros H. apply idx_Ok. apply nth_error_nth'; auto. Qed.

Lemma idx_out {A} (l : list A) i : length l <= i -> idx l i = Panic.
Proof. intros H. unfold idx. apply nth_error_None in H. now rewrite H. Qed.

Lemma gbit_out bs i : 64 * length bs <= i -> gbit bs i = false.
Proof. intros H. unfold gbit. rewrite nth_overflow by lia. apply N.bits_0. Qed.

Lemma land_one_bit w n : n < 64 -> (N.land w (shl64 1 (N.of_nat n)) =? 0)%N = negb (tb w n).
Proof.
  intros Hn. destruct (tb w n) eqn:E; cbn [negb].
  - apply N.eqb_neq. intros H0.
    assert (H1 : tb (N.land w (shl64 1 (N.of_nat n))) n = true).
    { rewrite tb_land, E, tb_shl64, tb_one. bc; reflexivity. }
    rewrite H0 in H1. unfold tb in H1. rewrite N.bits_0 in H1. discriminate.
  - apply N.eqb_eq. apply zero_tb. intros i. rewrite tb_land, tb_shl64, tb_one.
    bc; try reflexivity. replace i with n by lia. exact E.
Qed.

Lemma readBit_spec bs i : i < 64 * length bs -> readBit bs i = Ok (gbit bs i).
Proof.
  intros H. unfold readBit. rewrite idx_nth by lia. cbn [bind]. rewrite land_one_bit by lia. now rewrite negb_involutive.
Qed.

Lemma or_at_spec bs i x : i < length bs ->
  or_at bs i x = Ok (set_nth bs i (N.lor (nth i bs 0%N) x)).
Proof.
  intros H. unfold or_at. rewrite idx_nth by auto. cbn [bind]. unfold upd.
  destruct (Nat.ltb_spec i (length bs)); [reflexivity|lia].
Qed.

Lemma nth_set_nth {A} (l : list A) i j x d :
  nth j (set_nth l i x) d = if Nat.eqb i j && Nat.ltb i (length l) then x else nth j l d.
Proof.
  rewrite <- !nth_default_eq. unfold nth_default. rewrite nth_error_set_nth.
  destruct (Nat.eqb_spec i j) as [->|]; cbn [andb]; [|reflexivity].
  destruct (Nat.ltb_spec j (length l)); [reflexivity|].
  now rewrite (proj2 (nth_error_None l j)) by lia.
Qed.

Lemma gbit_set_or bs i x p : i < length bs ->
  gbit (set_nth bs i (N.lor (nth i bs 0%N) x)) p
  = gbit bs p || (Nat.eqb (p / 64) i && tb x (p mod 64)).
Proof.
  intros H. unfold gbit. rewrite nth_set_nth. rewrite Nat.eqb_sym.
  destruct (Nat.eqb_spec (p / 64) i) as [->|]; cbn [andb].
  - destruct (Nat.ltb_spec i (length bs)); [|lia]. apply tb_lor.
  - now rewrite orb_false_r.
Qed.

Lemma words_ok_set bs i x : words_ok bs -> (x < two64)%N -> words_ok (set_nth bs i x).
Proof.
  intros H Hx. revert i. induction H as [|w bs Hw Hbs IH]; intros [|i]; cbn; constructor; auto.
  apply IH.
Qed.

Lemma setBit_spec bs i : i < 64 * length bs -> words_ok bs ->
  exists bs', setBit bs i = Ok bs' /\ length bs' = length bs /\ words_ok bs' /\
    forall p, gbit bs' p = (Nat.eqb p i || gbit bs p).
Proof.
  intros H Hok.
  exists (set_nth bs (i / 64) (N.lor (nth (i / 64) bs 0%N) (shl64 1 (N.of_nat (i mod 64))))).
  split; [|split; [apply set_nth_length|split]].
  - unfold setBit. rewrite idx_nth by lia. cbn [bind]. unfold upd.
    destruct (Nat.ltb_spec (i / 64) (length bs)); [reflexivity|lia].
  - apply words_ok_set; auto. apply lor_lt64; [now apply words_ok_nth|apply shl64_lt].
  - intros p. rewrite gbit_set_or by lia. rewrite orb_comm. f_equal.
    rewrite tb_shl64, tb_one. bc; reflexivity.
Qed.

(** ** popcountBlock *)
Lemma popcount_words_spec bs off n : words_ok bs -> off + n <= length bs ->
  popcount_words bs off n = Ok (cnt (fun i => gbit bs (64 * off + i)) (64 * n)).
Proof.
  intros Hok. revert off. induction n as [|n IH]; intros off H; [reflexivity|].
  cbn [popcount_words]. rewrite idx_nth by lia. cbn [bind]. rewrite IH by lia. cbn [bind]. f_equal.
  replace (64 * S n) with (64 + 64 * n) by lia. rewrite cnt_add. f_equal.
  - rewrite pop64_cnt by (now apply words_ok_nth). apply cnt_ext. intros i Hi. unfold gbit.
    f_equal; [|lia]. f_equal. lia.
  - apply cnt_ext. intros i Hi. f_equal. lia.
Qed.

Lemma popcountBlock_spec bs off n : words_ok bs -> 0 < n -> off + (n - 1) / 64 < length bs ->
  popcountBlock bs off n = Ok (cnt (fun i => gbit bs (64 * off + i)) n).
Proof.
  intros Hok Hn H. unfold popcountBlock.
  destruct (Nat.eqb_spec n 0); [lia|]. cbv zeta.
  rewrite popcount_words_spec by (auto; lia). cbn [bind]. rewrite idx_nth by auto. cbn [bind]. f_equal.
  set (w := nth _ bs 0%N). replace (64 - 1 - (n - 1) mod 64) with (64 - ((n - 1) mod 64 + 1)) by lia.
  rewrite pop_shl by (try apply words_ok_nth; auto; lia).
  assert (En : n = 64 * ((n - 1) / 64) + ((n - 1) mod 64 + 1)) by lia. 
  transitivity (cnt (fun i => gbit bs (64 * off + i)) (64 * ((n - 1) / 64) + ((n - 1) mod 64 + 1))); [|now rewrite <- En].
  rewrite (cnt_add _ (64 * ((n - 1) / 64))). f_equal. apply cnt_ext. intros i Hi. unfold gbit, w.
  f_equal; [|lia]. f_equal. lia.
Qed.

(** ** bitVector.Init *)
Lemma write_word dst wid sh m w :
  words_ok dst -> sh < 64 -> m <= 64 -> (w < 2 ^ N.of_nat m)%N ->
  64 * wid + sh + m <= 64 * length dst -> 0 < m ->
  exists dst',
    bind (or_at dst wid (shl64 w (N.of_nat sh)))
      (fun d => if Nat.ltb 64 (sh + m) then or_at d (S wid) (shr64 w (N.of_nat (64 - sh))) else Ok d)
    = Ok dst' /\ length dst' = length dst /\ words_ok dst' /\
    forall p, gbit dst' p =
      gbit dst p || (Nat.leb (64 * wid + sh) p && Nat.ltb p (64 * wid + sh + m) && tb w (p - (64 * wid + sh))).
Proof.
  intros Hok Hsh Hm Hw Hlen H0.
  assert (Hhi : forall i, m <= i -> tb w i = false) by (intros i Hi; now apply (tb_high w m)).
  rewrite or_at_spec by lia. cbn [bind].
  set (d1 := set_nth _ _ _).
  assert (L1 : length d1 = length dst) by apply set_nth_length.
  assert (O1 : words_ok d1).
  { apply words_ok_set; auto. apply lor_lt64; [now apply words_ok_nth|apply shl64_lt]. }
  assert (G1 : forall p, gbit d1 p = gbit dst p || (Nat.eqb (p / 64) wid && tb (shl64 w (N.of_nat sh)) (p mod 64)))
    by (intros p; apply gbit_set_or; lia).
  assert (w < two64)%N as Hw64.
  { eapply N.lt_le_trans; [exact Hw|]. unfold two64. apply N.pow_le_mono_r; lia. }
  destruct (Nat.ltb_spec 64 (sh + m)).
  - rewrite or_at_spec by lia. eexists. split; [reflexivity|].
    split; [now rewrite set_nth_length|]. split.
    { apply words_ok_set; auto. apply lor_lt64; [now apply words_ok_nth|now apply shr64_lt]. }
    intros p. rewrite gbit_set_or by lia. rewrite G1, <- orb_assoc. f_equal.
    rewrite tb_shl64, tb_shr64.
    bc; try reflexivity; try (f_equal; lia); try (apply Hhi; lia); try (symmetry; apply Hhi; lia).
  - eexists. split; [reflexivity|]. split; [exact L1|]. split; [exact O1|].
    intros p. rewrite G1. f_equal. rewrite tb_shl64.
    bc; try reflexivity; try (f_equal; lia); try (apply Hhi; lia); try (symmetry; apply Hhi; lia).
Qed.

(** The bits written so far are exactly [B]. *)
Definition rep (dst : list N) (B : list bool) : Prop :=
  words_ok dst /\ forall p, gbit dst p = nth p B false.

Lemma rep_write dst wid sh m w B :
  rep dst B -> length B = 64 * wid + sh -> sh < 64 -> 0 < m <= 64 -> (w < 2 ^ N.of_nat m)%N ->
  64 * wid + sh + m <= 64 * length dst ->
  exists dst',
    bind (or_at dst wid (shl64 w (N.of_nat sh)))
      (fun d => if Nat.ltb 64 (sh + m) then or_at d (S wid) (shr64 w (N.of_nat (64 - sh))) else Ok d)
    = Ok dst' /\ length dst' = length dst /\ rep dst' (B ++ map (tb w) (seq 0 m)).
Proof.
  intros [Hok Hg] HB Hsh [Hm0 Hm] Hw Hlen.
  destruct (write_word dst wid sh m w) as (d&E&L&O&G); auto.
  exists d. split; [exact E|]. split; [exact L|]. split; [exact O|].
  intros p. rewrite G, Hg.
  destruct (Nat.lt_ge_cases p (length B)) as [Hp|Hp].
  - rewrite app_nth1 by auto. destruct (Nat.leb_spec (64 * wid + sh) p); [lia|]. apply orb_false_r.
  - rewrite app_nth2 by auto. rewrite (nth_overflow B) by auto. cbn [orb].
    destruct (Nat.leb_spec (64 * wid + sh) p); [|lia].
    destruct (Nat.ltb_spec p (64 * wid + sh + m)); cbn [andb].
    + rewrite nth_map_seq by lia. f_equal. lia.
    + symmetry. apply nth_overflow. rewrite map_length, seq_length. lia.
Qed.

Lemma map_seq_shift {A} (f : nat -> A) k n : map f (seq k n) = map (fun i => f (k + i)) (seq 0 n).
Proof.
  revert f k. induction n as [|n IH]; intros f k; [reflexivity|]. cbn [seq map]. f_equal; [f_equal; lia|].
  rewrite (IH f (S k)), (IH _ 1). apply map_ext. intros i. f_equal. lia.
Qed.

Lemma bits_of_add bs n m : bits_of bs (n + m) = bits_of bs n ++ map (fun i => gbit bs (n + i)) (seq 0 m).
Proof. unfold bits_of. rewrite seq_app, map_app. f_equal. apply map_seq_shift. Qed.

Lemma map_seq_ext {A} (f g : nat -> A) n : (forall i, i < n -> f i = g i) -> map f (seq 0 n) = map g (seq 0 n).
Proof. intros H. apply map_ext_in. intros i Hi. apply in_seq in Hi. apply H. lia. Qed.

Lemma init_complete_spec todo : forall word src sh dst wid B,
  rep dst B -> length B = 64 * wid + sh -> sh < 64 -> words_ok src -> word + todo <= length src ->
  64 * wid + sh + 64 * todo <= 64 * length dst ->
  exists dst', init_complete todo word src sh dst wid = Ok (dst', wid + todo) /\
    length dst' = length dst /\ rep dst' (B ++ map (fun i => gbit src (64 * word + i)) (seq 0 (64 * todo))).
Proof.
  induction todo as [|todo IH]; intros word src sh dst wid B Hrep HB Hsh Hsrc Hw Hlen.
  - exists dst. cbn [init_complete]. rewrite Nat.add_0_r. cbn [seq map Nat.mul]. rewrite app_nil_r. auto.
  - cbn [init_complete]. rewrite idx_nth by lia. cbn [bind].
    destruct (rep_write dst wid sh 64 (nth word src 0%N) B) as (d&E&L&R); auto; try lia.
    { apply (words_ok_nth src word Hsrc). }
    assert (E2 : Nat.ltb 64 (sh + 64) = Nat.ltb 0 sh).
    { destruct (Nat.ltb_spec 64 (sh + 64)), (Nat.ltb_spec 0 sh); auto; lia. }
    rewrite E2 in E. apply bind_Ok in E as (d1 & E & E').
    rewrite E. cbn [bind]. rewrite E'. cbn [bind].
    destruct (IH (S word) src sh d (S wid) (B ++ map (tb (nth word src 0%N)) (seq 0 64))) as (d2&F&L2&R2); auto; try lia.
    { rewrite app_length, map_length, seq_length. lia. }
    exists d2. rewrite F. split; [do 2 f_equal; lia|]. split; [lia|].
    replace (64 * S todo) with (64 + 64 * todo) by lia.
    rewrite seq_app, map_app, app_assoc.
    assert (Ea : map (tb (nth word src 0%N)) (seq 0 64) = map (fun i => gbit src (64 * word + i)) (seq 0 64)).
    { apply map_seq_ext. intros i Hi. unfold gbit. f_equal; [|lia]. f_equal. lia. }
    rewrite Ea in R2.
    replace (map (fun i => gbit src (64 * word + i)) (seq (0 + 64) (64 * todo)))
      with (map (fun i => gbit src (64 * S word + i)) (seq 0 (64 * todo))); [exact R2|].
    rewrite (map_seq_shift _ (0 + 64)). apply map_seq_ext. intros i Hi. f_equal. lia.
Qed.

(** A source level: [n] meaningful bits, everything after them clear. *)
Definition level_ok (src : list N) (n : nat) : Prop :=
  words_ok src /\ n <= 64 * length src /\ forall i, n <= i -> gbit src i = false.

Lemma init_level_spec src n dst wid sh B :
  rep dst B -> length B = 64 * wid + sh -> sh < 64 -> level_ok src n ->
  length B + n <= 64 * length dst ->
  exists dst' wid' sh', init_level src n (dst, wid, sh) = Ok (dst', wid', sh') /\
    length dst' = length dst /\ rep dst' (B ++ bits_of src n) /\
    length B + n = 64 * wid' + sh' /\ sh' < 64.
Proof.
  intros Hrep HB Hsh (Hok & Hn & Hclean) Hlen. unfold init_level.
  destruct (Nat.eqb_spec n 0) as [->|Hn0].
  { exists dst, wid, sh. split; [reflexivity|]. split; [reflexivity|].
    cbn [bits_of seq map]. rewrite app_nil_r. split; [exact Hrep|]. lia. }
  destruct (init_complete_spec (n / 64) 0 src sh dst wid B) as (d&E&L&R); auto; try lia.
  rewrite E. cbn [bind].
  assert (Ec : map (fun i => gbit src (64 * 0 + i)) (seq 0 (64 * (n / 64))) = bits_of src (64 * (n / 64))) by reflexivity.
  rewrite Ec in R. clear Ec.
  destruct (Nat.ltb_spec 0 (n mod 64)) as [Hr|Hr].
  - rewrite idx_nth by lia. cbn [bind].
    set (w := nth (n / 64) src 0%N).
    assert (Hw : (w < 2 ^ N.of_nat (n mod 64))%N).
    { apply tb_lt_pow2. intros i Hi. destruct (Nat.lt_ge_cases i 64) as [Hi64|Hi64].
      - specialize (Hclean (64 * (n / 64) + i)). unfold gbit in Hclean.
        replace ((64 * (n / 64) + i) / 64) with (n / 64) in Hclean by lia.
        replace ((64 * (n / 64) + i) mod 64) with i in Hclean by lia. apply Hclean. lia.
      - apply (tb_high w 64); auto. apply (words_ok_nth src (n / 64) Hok). }
    destruct (rep_write d (wid + n / 64) sh (n mod 64) w (B ++ bits_of src (64 * (n / 64)))) as (d2&E2&L2&R2); auto; try lia.
    { rewrite app_length, bits_of_length. lia. }
    assert (Eb : (B ++ bits_of src (64 * (n / 64))) ++ map (tb w) (seq 0 (n mod 64)) = B ++ bits_of src n).
    { rewrite <- app_assoc. f_equal. replace n with (64 * (n / 64) + n mod 64) at 3 by lia.
      rewrite bits_of_add. f_equal. apply map_seq_ext. intros i Hi. unfold gbit, w. f_equal; [|lia]. f_equal. lia. }
    rewrite Eb in R2.
    apply bind_Ok in E2 as (d1 & E2 & E3). rewrite E2. cbn [bind].
    destruct (Nat.ltb_spec 64 (sh + n mod 64)), (Nat.leb_spec (sh + n mod 64) 64); try lia.
    + rewrite E3. cbn [bind]. do 3 eexists. split; [reflexivity|]. split; [lia|]. split; [exact R2|]. lia.
    + inversion E3; subst d2. do 3 eexists. split; [reflexivity|]. split; [lia|]. split; [exact R2|].
      destruct (Nat.eqb_spec ((sh + n mod 64) mod 64) 0); lia.
  - do 3 eexists. split; [reflexivity|]. split; [exact L|].
    replace (64 * (n / 64)) with n in R by lia. split; [exact R|]. lia.
Qed.

(** Concatenation of the meaningful bits of all levels. *)
Definition concat_levels (levels : list (list N)) (nums : list nat) : list bool :=
  concat (map (fun p => bits_of (fst p) (snd p)) (combine levels nums)).

Lemma init_levels_spec levels : forall done nums dst wid sh B,
  rep dst B -> length B = 64 * wid + sh -> sh < 64 ->
  Forall2 level_ok levels (firstn (length levels) nums) ->
  length B + nsum (firstn (length levels) nums) <= 64 * length dst ->
  exists dst' wid' sh', init_levels levels (length done) (done ++ nums) (dst, wid, sh) = Ok (dst', wid', sh') /\
    length dst' = length dst /\ rep dst' (B ++ concat_levels levels nums).
Proof.
  induction levels as [|src levels IH]; intros done nums dst wid sh B Hrep HB Hsh HF Hlen.
  - exists dst, wid, sh. split; [reflexivity|]. split; [reflexivity|].
    unfold concat_levels. cbn. now rewrite app_nil_r.
  - destruct nums as [|n nums]; [inversion HF|]. cbn [length firstn] in *.
    inversion HF as [|? ? ? ? Hl HF']; subst. unfold nsum in Hlen; cbn [fold_right] in Hlen; fold (nsum (firstn (length levels) nums)) in Hlen.
    cbn [init_levels].
    assert (E0 : idx (done ++ n :: nums) (length done) = Ok n).
    { apply idx_Ok. rewrite nth_error_app2 by lia. now rewrite Nat.sub_diag. }
    rewrite E0. cbn [bind].
    destruct (init_level_spec src n dst wid sh B) as (d&wi&s&E&L&R&P&Hs); auto; try lia.
    rewrite E. cbn [bind].
    destruct (IH (done ++ [n]) nums d wi s (B ++ bits_of src n)) as (d2&wi2&s2&E2&L2&R2); auto.
    { rewrite app_length, bits_of_length. lia. }
    { rewrite app_length, bits_of_length. lia. }
    rewrite app_length in E2. cbn [length] in E2. rewrite Nat.add_1_r in E2. rewrite <- app_assoc in E2. cbn [app] in E2.
    exists d2, wi2, s2. split; [exact E2|]. split; [lia|].
    unfold concat_levels in *. cbn [combine map concat fst snd]. now rewrite app_assoc.
Qed.

(** [v] represents the bit string [B]. *)
Definition bv_rep (v : bitVector) (B : list bool) : Prop :=
  bv_numBits v = length B /\ length (bv_bits v) = numWords (length B) /\ rep (bv_bits v) B.

Lemma nsum_app l1 l2 : nsum (l1 ++ l2) = nsum l1 + nsum l2.
Proof. induction l1; cbn; auto. unfold nsum in *. cbn in *. lia. Qed.

Lemma concat_levels_length levels : forall nums,
  length levels <= length nums -> length (concat_levels levels nums) = nsum (firstn (length levels) nums).
Proof.
  induction levels as [|l levels IH]; intros [|n nums] H; cbn [length firstn] in *; try lia; try reflexivity.
  unfold concat_levels in *. cbn [combine map concat fst snd]. rewrite app_length, bits_of_length.
  rewrite IH by lia. unfold nsum. cbn [fold_right]. reflexivity.
Qed.

Lemma numWords_bound n : n <= 64 * numWords n /\ 64 * numWords n < n + 64.
Proof. unfold numWords. destruct (Nat.eqb_spec (n mod 64) 0); lia. Qed.

Theorem bitVector_init_correct levels nums :
  Forall2 level_ok levels (firstn (length levels) nums) ->
  exists v, bitVector_init levels nums = Ok v /\
    bv_rep v (concat_levels levels nums ++ repeat false (nsum (skipn (length levels) nums))).
Proof.
  intros HF. unfold bitVector_init.
  assert (Hll : length levels <= length nums).
  { apply Forall2_length in HF. rewrite firstn_length in HF. lia. }
  pose proof (concat_levels_length levels nums Hll) as HL.
  assert (HT : nsum nums = nsum (firstn (length levels) nums) + nsum (skipn (length levels) nums)).
  { rewrite <- nsum_app, firstn_skipn. reflexivity. }
  destruct (numWords_bound (nsum nums)) as [W1 W2].
  destruct (init_levels_spec levels [] nums (repeat 0%N (numWords (nsum nums))) 0 0 []) as (d&w&s&E&L&R); auto.
  - split.
    + apply Forall_forall. intros x Hx. apply repeat_spec in Hx. subst. reflexivity.
    + intros p. unfold gbit. replace (nth (p / 64) (repeat 0%N (numWords (nsum nums))) 0%N) with 0%N.
      * unfold tb. rewrite N.bits_0. now destruct p.
      * symmetry. apply nth_repeat.
  - lia.
  - rewrite repeat_length. cbn [length]. lia.
  - cbn [app length] in E. rewrite E. cbn [bind]. rewrite repeat_length in L.
    eexists. split; [reflexivity|]. unfold bv_rep. cbn [bv_numBits bv_bits].
    rewrite app_length, repeat_length, HL, <- HT. split; [auto|]. split; [auto|].
    destruct R as [R1 R2]. split; [exact R1|]. intros p. rewrite R2. cbn [app].
    destruct (Nat.lt_ge_cases p (length (concat_levels levels nums))).
    + now rewrite app_nth1.
    + rewrite app_nth2 by auto. rewrite nth_overflow by auto.
      destruct (Nat.lt_ge_cases (p - length (concat_levels levels nums)) (nsum (skipn (length levels) nums))).
      * symmetry. apply nth_repeat.
      * rewrite nth_overflow; auto. rewrite repeat_length. lia.
Qed.

Lemma bv_isSet_spec v B p : bv_rep v B -> p < length B -> bv_isSet v p = Ok (nth p B false).
Proof.
  intros (H1 & H2 & H3 & H4) Hp. unfold bv_isSet. rewrite readBit_spec.
  - now rewrite H4.
  - rewrite H2. pose proof (numWords_bound (length B)). lia.
Qed.

Lemma cnt_gbit_cntl bs B s n : rep bs B ->
  cnt (fun i => gbit bs (s + i)) n = cntl B (s + n) - cntl B s.
Proof.
  intros [_ H]. unfold cntl. rewrite cnt_add.
  rewrite (cnt_ext (fun i => gbit bs (s + i)) (fun i => nth (s + i) B false)) by (intros; apply H). lia.
Qed.

Lemma cntl_mono B n m : n <= m -> cntl B n <= cntl B m.
Proof. apply cnt_mono. Qed.

(** ** Rank *)
Lemma rank_blocks_spec bs B bsz todo : forall i,
  rep bs B -> 0 < bsz -> bsz mod 64 = 0 -> (i + todo) * (bsz / 64) <= length bs ->
  rank_blocks todo i bs (bsz / 64) bsz (cntl B (i * bsz)) =
  Ok (map (fun j => cntl B (j * bsz)) (seq i (S todo))).
Proof.
  induction todo as [|todo IH]; intros i Hrep H0 Hm Hlen; [reflexivity|].
  cbn [rank_blocks]. pose proof (proj1 Hrep) as Hok.
  assert (Hb : bsz = 64 * (bsz / 64)) by lia.
  assert (Hq : bsz / 64 > 0) by lia.
  rewrite popcountBlock_spec; auto.
  - cbn [bind]. rewrite (cnt_gbit_cntl bs B (64 * (i * (bsz / 64))) bsz Hrep).
    replace (64 * (i * (bsz / 64))) with (i * bsz) by nia.
    pose proof (cntl_mono B (i * bsz) (i * bsz + bsz)).
    replace (cntl B (i * bsz) + (cntl B (i * bsz + bsz) - cntl B (i * bsz))) with (cntl B (S i * bsz)).
    + rewrite IH; auto. lia.
    + replace (S i * bsz) with (i * bsz + bsz) by lia. lia.
  - assert ((bsz - 1) / 64 < bsz / 64) by lia. nia.
Qed.

(** A rank vector represents [B] when its bits do and its table is the sampled rank. *)
Definition rv_rep (bsz : nat) (v : rankVector) (B : list bool) : Prop :=
  bv_rep (rv_bv v) B /\ rv_blockSize v = bsz /\
  rv_lut v = map (fun j => cntl B (j * bsz)) (seq 0 (length B / bsz + 1)).

Lemma rankVector_init_spec bsz levels nums :
  0 < bsz -> bsz mod 64 = 0 ->
  Forall2 level_ok levels (firstn (length levels) nums) ->
  exists v, rankVector_init bsz levels nums = Ok v /\
    rv_rep bsz v (concat_levels levels nums ++ repeat false (nsum (skipn (length levels) nums))).
Proof.
  intros H0 Hm HF. unfold rankVector_init.
  destruct (bitVector_init_correct levels nums HF) as (bv & E & R). rewrite E. cbn [bind].
  set (B := concat_levels _ _ ++ _) in *.
  destruct R as (R1 & R2 & R3). rewrite R1.
  rewrite Nat.add_sub.
  assert (Hb : bsz = 64 * (bsz / 64)) by lia.
  pose proof (numWords_bound (length B)) as [W _].
  pose proof (rank_blocks_spec (bv_bits bv) B bsz (length B / bsz) 0 R3 H0 Hm) as Hr.
  change (cntl B (0 * bsz)) with 0 in Hr. rewrite Hr.
  - cbn [bind]. eexists. split; [reflexivity|]. split; [split; [|split]; auto|]. cbn [rv_blockSize rv_lut].
    split; auto. now rewrite Nat.add_1_r.
  - rewrite R2. pose proof (Nat.mul_div_le (length B) bsz). nia.
Qed.

Lemma rank_at_spec bsz v B p :
  0 < bsz -> bsz mod 64 = 0 -> rv_rep bsz v B -> p < length B ->
  rank_at bsz v p = Ok (cntl B (p + 1)).
Proof.
  intros H0 Hm (HB & _ & Hlut) Hp. unfold rank_at. destruct HB as (H1 & H2 & H3).
  assert (Hdm : p = bsz * (p / bsz) + p mod bsz) by (apply Nat.div_mod; lia).
  assert (Hmb : p mod bsz < bsz) by (apply Nat.mod_upper_bound; lia).
  assert (Hq : p / bsz <= length B / bsz) by (apply Nat.div_le_mono; lia).
  assert (Hb : bsz = 64 * (bsz / 64)) by lia.
  rewrite Hlut. rewrite (idx_in _ _ 0) by (rewrite map_length, seq_length; lia). cbn [bind].
  rewrite nth_map_seq by lia.
  rewrite popcountBlock_spec; [|exact (proj1 H3)|lia|].
  - cbn [bind]. f_equal. rewrite (cnt_gbit_cntl _ B _ _ H3).
    replace (64 * (p / bsz * (bsz / 64))) with (p / bsz * bsz) by nia.
    replace (p / bsz * bsz + (p mod bsz + 1)) with (p + 1) by nia.
    pose proof (cntl_mono B (p / bsz * bsz) (p + 1)). nia.
  - rewrite H2. pose proof (numWords_bound (length B)) as [W _].
    replace (p mod bsz + 1 - 1) with (p mod bsz) by lia.
    assert (64 * (p / bsz * (bsz / 64) + p mod bsz / 64) <= p).
    { assert (64 * (p mod bsz / 64) <= p mod bsz) by lia. nia. }
    lia.
Qed.

(** ** Select *)
(** [p] is the position of the [k]-th set bit (from 1). *)
Definition is_select (B : list bool) (k p : nat) : Prop :=
  p < length B /\ nth p B false = true /\ cntl B p = k - 1.

Lemma is_select_unique B k p q : is_select B k p -> is_select B k q -> p = q.
Proof.
  intros (_&H1&H2) (_&H3&H4). apply (cnt_select_unique (fun i => nth i B false)); auto.
  unfold cntl in *. congruence.
Qed.

Lemma nth_true_lt B p : nth p B false = true -> p < length B.
Proof. intros H. destruct (Nat.lt_ge_cases p (length B)); auto. rewrite nth_overflow in H by auto. discriminate. Qed.

Lemma cntl_all B n : length B <= n -> cntl B n = cntl B (length B).
Proof.
  intros H. unfold cntl. replace n with (length B + (n - length B)) by lia. rewrite cnt_add.
  rewrite (cnt_false (fun i => nth (length B + i) B false)); [lia|]. intros i _. apply nth_overflow. lia.
Qed.

Lemma select64_spec w k : (w < two64)%N -> 1 <= k <= pop w ->
  exists q, select64 w k = Ok q /\ q < 64 /\ tb w q = true /\ cnt (tb w) q = k - 1.
Proof.
  intros Hw Hk. unfold select64, select64_other.
  destruct (select64Broadword_correct w k Hw Hk) as (q & E & H). exists q. split; auto.
Qed.

Lemma rep_word bs B i : rep bs B -> pop (nth i bs 0%N) = cntl B (64 * i + 64) - cntl B (64 * i).
Proof.
  intros H. rewrite pop64_cnt by (apply words_ok_nth, H).
  rewrite <- (cnt_gbit_cntl bs B (64 * i) 64 H). apply cnt_ext. intros j Hj. unfold gbit. f_equal; [|lia]. f_equal. lia.
Qed.

Lemma rep_word_cnt bs B i q : rep bs B -> q <= 64 ->
  cnt (tb (nth i bs 0%N)) q = cntl B (64 * i + q) - cntl B (64 * i).
Proof.
  intros H Hq. rewrite <- (cnt_gbit_cntl bs B (64 * i) q H). apply cnt_ext. intros j Hj. unfold gbit. f_equal; [|lia]. f_equal. lia.
Qed.

Lemma rep_word_tb bs B i q : rep bs B -> q < 64 -> tb (nth i bs 0%N) q = nth (64 * i + q) B false.
Proof. intros [_ H] Hq. rewrite <- H. unfold gbit. f_equal; [|lia]. f_equal. lia. Qed.

(** The sampled table: entry 0 is 0, entry [j>0] is the position of set bit 64*j. *)
Definition lut_ok (B : list bool) (lut : list nat) (sampled : nat) : Prop :=
  sampled = 64 * length lut /\ nth_error lut 0 = Some 0 /\
  forall j p, 0 < j -> nth_error lut j = Some p -> is_select B (64 * j) p.

Lemma sel_sample_spec bs B i fuel : forall sampled lut,
  rep bs B ->
  let w := nth i bs 0%N in let upto := cntl B (64 * i) in
  upto < sampled -> pop w + upto < sampled + 64 * fuel -> lut_ok B lut sampled ->
  exists s' lut', sel_sample fuel i w (pop w) upto sampled lut = Ok (s', lut') /\
    cntl B (64 * S i) < s' /\ lut_ok B lut' s' /\ (s' <= cntl B (64 * S i) + 64 \/ s' = sampled).
Proof.
  induction fuel as [|fuel IH]; intros sampled lut Hrep w upto H1 H2 Hl; cbn [sel_sample].
  - destruct (Nat.leb_spec sampled (upto + pop w)); [lia|].
    exists sampled, lut. split; [reflexivity|]. split; [|auto].
    pose proof (rep_word bs B i Hrep). pose proof (cntl_mono B (64 * i) (64 * i + 64)).
    replace (64 * S i) with (64 * i + 64) by lia. unfold w, upto in *. lia.
  - pose proof (rep_word bs B i Hrep) as Hp. pose proof (cntl_mono B (64 * i) (64 * i + 64)) as Hmo.
    replace (64 * S i) with (64 * i + 64) in * by lia.
    destruct (Nat.leb_spec sampled (upto + pop w)).
    + destruct (select64_spec w (sampled - upto)) as (q&E&Hq&Hb&Hc).
      { apply words_ok_nth, Hrep. } { unfold w, upto in *. lia. }
      rewrite E. cbn [bind].
      assert (Hl' : lut_ok B (lut ++ [i * 64 + q]) (sampled + 64)).
      { destruct Hl as (L1 & L2 & L3). split; [rewrite app_length; cbn [length]; lia|]. split.
        - destruct lut; [discriminate|exact L2].
        - intros j p Hj Hn. destruct (Nat.lt_ge_cases j (length lut)) as [Hjl|Hjl].
          + rewrite nth_error_app1 in Hn by auto. now apply L3.
          + rewrite nth_error_app2 in Hn by auto.
            destruct (j - length lut) as [|d] eqn:Ed; [|destruct d; discriminate].
            cbn in Hn. inversion Hn; subst p. replace j with (length lut) in * by lia.
            unfold w in Hb, Hc. rewrite (rep_word_tb bs B i q Hrep Hq) in Hb.
            rewrite (rep_word_cnt bs B i q Hrep) in Hc by lia.
            pose proof (cntl_mono B (64 * i) (64 * i + q)).
            replace (i * 64 + q) with (64 * i + q) by lia.
            split; [now apply nth_true_lt|]. split; [auto|]. unfold upto in *. lia. }
      destruct (IH (sampled + 64) (lut ++ [i * 64 + q])) as (s'&l'&E'&A1&A2&A3); auto.
      * lia.
      * fold w. fold upto. lia.
      * fold w upto in E'. rewrite E'. exists s', l'. split; [reflexivity|].
        replace (64 * S i) with (64 * i + 64) in * by lia. split; [auto|]. split; [auto|].
        left. destruct A3 as [A3|A3]; [lia|]. unfold upto, w in *. lia.
    + exists sampled, lut. split; [reflexivity|]. unfold w, upto in *. split; [lia|]. auto.
Qed.

Lemma sel_words_spec bs B ws : forall i sampled lut,
  rep bs B -> ws = skipn i bs -> i <= length bs ->
  cntl B (64 * i) < sampled -> sampled <= cntl B (64 * i) + 64 -> lut_ok B lut sampled ->
  exists lut' s', sel_words ws i (cntl B (64 * i)) sampled lut = Ok (cntl B (length B), lut') /\
    lut_ok B lut' s' /\ cntl B (length B) < s' <= cntl B (length B) + 64.
Proof.
  induction ws as [|w ws IH]; intros i sampled lut Hrep Hws Hi H1 H2 Hl.
  - cbn [sel_words]. assert (i = length bs).
    { apply (f_equal (@length N)) in Hws. rewrite skipn_length in Hws. cbn in Hws. lia. }
    assert (HB : cntl B (64 * i) = cntl B (length B)).
    { assert (Hall : length B <= 64 * i \/ 64 * i < length B) by lia. destruct Hall as [Hall|Hall].
      - now apply cntl_all.
      - unfold cntl. replace (length B) with (64 * i + (length B - 64 * i)) by lia. rewrite cnt_add.
        rewrite (cnt_false (fun j => nth (64 * i + j) B false)); [lia|]. intros j _.
        destruct Hrep as [_ Hg]. rewrite <- Hg. apply gbit_out. lia. }
    exists lut, sampled. rewrite HB in *. auto.
  - assert (Hlt : i < length bs).
    { apply (f_equal (@length N)) in Hws. rewrite skipn_length in Hws. cbn in Hws. lia. }
    assert (Hw : w = nth i bs 0%N /\ ws = skipn (S i) bs).
    { clear - Hws Hlt. revert i Hws Hlt. induction bs as [|b bs IHb]; intros [|i] E Hlt; cbn in *; try lia.
      - inversion E; auto. - apply IHb; auto. lia. }
    destruct Hw as [-> Hws']. cbn [sel_words].
    pose proof (sel_sample_spec bs B i (S (pop (nth i bs 0%N))) sampled lut Hrep) as Hs. cbv zeta in Hs.
    destruct Hs as (s' & l' & E & A1 & A2 & A3); auto; [lia|].
    rewrite E. cbn [bind].
    replace (cntl B (64 * i) + pop (nth i bs 0%N)) with (cntl B (64 * S i)).
    + apply IH; auto; try lia.
      destruct A3 as [A3|A3]; auto. pose proof (cntl_mono B (64 * i) (64 * S i)). lia.
    + rewrite (rep_word bs B i Hrep). pose proof (cntl_mono B (64 * i) (64 * i + 64)).
      replace (64 * S i) with (64 * i + 64) by lia. lia.
Qed.

Definition sv_rep (v : selectVector) (B : list bool) : Prop :=
  bv_rep (sv_bv v) B /\ sv_numOnes v = cntl B (length B) /\
  length (sv_lut v) = cntl B (length B) / 64 + 1 /\
  nth_error (sv_lut v) 0 = Some 0 /\
  (forall j p, 0 < j -> nth_error (sv_lut v) j = Some p -> is_select B (64 * j) p).

Lemma selectVector_init_spec levels nums :
  Forall2 level_ok levels (firstn (length levels) nums) ->
  exists v, selectVector_init levels nums = Ok v /\
    sv_rep v (concat_levels levels nums ++ repeat false (nsum (skipn (length levels) nums))).
Proof.
  intros HF. unfold selectVector_init.
  destruct (bitVector_init_correct levels nums HF) as (bv & E & R). rewrite E. cbn [bind].
  set (B := concat_levels _ _ ++ _) in *.
  destruct (sel_words_spec (bv_bits bv) B (bv_bits bv) 0 64 [0]) as (lut & s & E2 & L & Hs).
  - apply R. - reflexivity. - lia. - cbn; lia. - cbn; lia.
  - split; [reflexivity|]. split; [reflexivity|]. intros [|j] p Hj; [lia|]. destruct j; discriminate.
  - change (cntl B (64 * 0)) with 0 in E2. rewrite E2. cbn [bind]. eexists. split; [reflexivity|].
    destruct L as (L1 & L2 & L3).
    split; [exact R|]. cbn [sv_numOnes sv_lut]. split; [auto|]. split; [lia|]. auto.
Qed.

Lemma sel_loop_spec bs B fuel : forall wordOff w rankLeft base,
  rep bs B ->
  (w < two64)%N -> wordOff + fuel >= length bs -> wordOff < length bs ->
  (* the word holds exactly the set bits of positions in [base, 64*(wordOff+1)) *)
  64 * wordOff <= base <= 64 * wordOff + 64 ->
  (forall q, q < 64 -> tb w q = (Nat.leb base (64 * wordOff + q) && nth (64 * wordOff + q) B false)) ->
  1 <= rankLeft -> cntl B base + rankLeft <= cntl B (length B) ->
  exists wo w' r', sel_loop fuel bs wordOff w (pop w) rankLeft = Ok (wo, w', r') /\
    (w' < two64)%N /\ 1 <= r' <= pop w' /\
    forall q, q < 64 -> tb w' q = true -> cnt (tb w') q = r' - 1 ->
      is_select B (cntl B base + rankLeft) (64 * wo + q).
Proof.
  induction fuel as [|fuel IH]; intros wordOff w rankLeft base Hrep Hw Hfuel Hwo Hbase Htb Hr Hle;
    [lia|].
  assert (Hpop : forall q, q <= 64 -> cnt (tb w) q = cntl B (Nat.max base (64 * wordOff + q)) - cntl B base).
  { intros q Hq.
    induction q as [|q IHq].
    - cbn [cnt]. replace (Nat.max base (64 * wordOff + 0)) with base by lia. lia.
    - cbn [cnt]. rewrite IHq by lia. rewrite Htb by lia.
      destruct (Nat.leb_spec base (64 * wordOff + q)); cbn [andb].
      + replace (Nat.max base (64 * wordOff + q)) with (64 * wordOff + q) by lia.
        replace (Nat.max base (64 * wordOff + S q)) with (S (64 * wordOff + q)) by lia.
        unfold cntl at 3. cbn [cnt]. fold (cntl B (64 * wordOff + q)).
        pose proof (cntl_mono B base (64 * wordOff + q)). destruct (nth (64 * wordOff + q) B false); lia.
      + replace (Nat.max base (64 * wordOff + q)) with base by lia.
        replace (Nat.max base (64 * wordOff + S q)) with base by lia. lia. }
  assert (HP : pop w = cntl B (64 * wordOff + 64) - cntl B base).
  { rewrite pop64_cnt by auto. rewrite Hpop by lia. f_equal. f_equal. lia. }
  pose proof (cntl_mono B base (64 * wordOff + 64)) as Hmono.
  cbn [sel_loop]. destruct (Nat.ltb_spec (pop w) rankLeft).
  - assert (Hnext : S wordOff < length bs).
    { destruct (Nat.lt_ge_cases (S wordOff) (length bs)); auto. exfalso.
      assert (cntl B (length B) <= cntl B (64 * wordOff + 64)); [|lia].
      unfold cntl. destruct (Nat.lt_ge_cases (length B) (64 * wordOff + 64)) as [Hb|Hb].
      - apply cnt_mono; lia.
      - replace (length B) with (64 * wordOff + 64 + (length B - (64 * wordOff + 64))) by lia. rewrite cnt_add.
        rewrite (cnt_false (fun j => nth (64 * wordOff + 64 + j) B false)); [lia|]. intros j _.
        rewrite <- (proj2 Hrep). apply gbit_out. lia. }
    rewrite idx_nth by auto. cbn [bind].
    destruct (IH (S wordOff) (nth (S wordOff) bs 0%N) (rankLeft - pop w) (64 * S wordOff)) as (wo&w'&r'&E&F1&F2&F3); auto; try lia.
    + apply words_ok_nth, Hrep.
    + intros q Hq. rewrite (rep_word_tb bs B (S wordOff) q Hrep Hq).
      destruct (Nat.leb_spec (64 * S wordOff) (64 * S wordOff + q)); [reflexivity|lia].
    + replace (64 * S wordOff) with (64 * wordOff + 64) by lia. lia.
    + exists wo, w', r'. split; [exact E|]. split; [auto|]. split; [auto|].
      replace (64 * S wordOff) with (64 * wordOff + 64) in F3 by lia.
      replace (cntl B (64 * wordOff + 64) + (rankLeft - pop w)) with (cntl B base + rankLeft) in F3 by lia. exact F3.
  - exists wordOff, w, rankLeft. split; [reflexivity|]. split; [auto|]. split; [lia|].
    intros q Hq Hb Hc. rewrite Htb in Hb by auto. apply andb_true_iff in Hb as [Hb1 Hb2]. apply Nat.leb_le in Hb1.
    rewrite Hpop in Hc by lia. replace (Nat.max base (64 * wordOff + q)) with (64 * wordOff + q) in Hc by lia.
    pose proof (cntl_mono B base (64 * wordOff + q)).
    split; [now apply nth_true_lt|]. split; [auto|]. lia.
Qed.

Lemma tb_shl_shr w n q : n < 64 -> q < 64 ->
  tb (shl64 (shr64 w (N.of_nat n)) (N.of_nat n)) q = Nat.leb n q && tb w q.
Proof.
  intros Hn Hq. rewrite tb_shl64, tb_shr64. bc; try reflexivity. f_equal. lia.
Qed.

Theorem select_correct v B k :
  sv_rep v B -> nth 0 B false = true -> 1 <= k <= cntl B (length B) ->
  exists p, select v k = Ok p /\ is_select B k p.
Proof.
  intros (Hbv & Hones & Hll & Hl0 & Hlut) H0 Hk.
  destruct Hbv as (N1 & N2 & Hrep). unfold select.
  set (rl := if Nat.eqb (k / 64) 0 then k mod 64 - 1 else k mod 64).
  assert (Hstart : exists pos, idx (sv_lut v) (k / 64) = Ok pos /\ is_select B (k - rl) pos /\ rl < k).
  { assert (Hlt : k / 64 < length (sv_lut v)) by lia.
    exists (nth (k / 64) (sv_lut v) 0). split; [now apply idx_in|].
    unfold rl. destruct (Nat.eqb_spec (k / 64) 0) as [E|E].
    - rewrite E. apply nth_error_nth with (d := 0) in Hl0. rewrite Hl0.
      replace (k - (k mod 64 - 1)) with 1 by lia. split; [|lia].
      split; [now apply nth_true_lt|]. split; auto.
    - replace (k - k mod 64) with (64 * (k / 64)) by lia. split; [|lia].
      apply Hlut; [lia|]. now apply nth_error_nth'. }
  assert (Hguard : Nat.eqb (k / 64) 0 && Nat.eqb (k mod 64) 0 = false).
  { destruct (Nat.eqb_spec (k / 64) 0), (Nat.eqb_spec (k mod 64) 0); auto; lia. }
  rewrite Hguard. cbv zeta.
  destruct Hstart as (pos & E & Hs & Hrl). rewrite E. cbn [bind]. clearbody rl. clear Hguard.
  destruct (Nat.eqb_spec rl 0) as [->|Hrl0].
  { exists pos. split; [reflexivity|]. now rewrite Nat.sub_0_r in Hs. }
  destruct Hs as (Hpl & Hpb & Hpc).
  assert (Hbase : cntl B (S pos) = k - rl).
  { unfold cntl. cbn [cnt]. fold (cntl B pos). rewrite Hpb. lia. }
  assert (Hlast : S pos < length B).
  { destruct (Nat.lt_ge_cases (S pos) (length B)); auto. exfalso.
    assert (cntl B (length B) <= cntl B (S pos)) by (apply cntl_mono; lia). lia. }
  pose proof (numWords_bound (length B)) as [W1 _].
  set (wo := S pos / 64). set (bo := S pos mod 64).
  assert (Epair : (if Nat.eqb (pos mod 64) 63 then (S (pos / 64), 0) else (pos / 64, S (pos mod 64))) = (wo, bo)).
  { unfold wo, bo. destruct (Nat.eqb_spec (pos mod 64) 63); f_equal; lia. }
  rewrite Epair.
  assert (Hwo : wo < length (bv_bits (sv_bv v))) by (unfold wo; lia).
  rewrite idx_nth by auto. cbn [bind].
  set (w := shl64 _ _).
  assert (Hw : (w < two64)%N) by apply shl64_lt.
  assert (Hwp : 64 * wo <= S pos <= 64 * wo + 64) by (unfold wo; lia).
  destruct (sel_loop_spec (bv_bits (sv_bv v)) B (length (bv_bits (sv_bv v))) wo w rl (S pos) Hrep) as (wo'&w'&r'&EL&F1&F2&F3); auto; try lia.
  - intros q Hq. unfold w. rewrite tb_shl_shr by (unfold bo; lia).
    rewrite (rep_word_tb _ B wo q Hrep Hq). f_equal.
    unfold wo, bo. destruct (Nat.leb_spec (S pos mod 64) q), (Nat.leb_spec (S pos) (64 * (S pos / 64) + q)); auto; lia.
  - rewrite EL. cbn [bind].
    destruct (select64_spec w' r' F1 F2) as (q & Eq & Q1 & Q2 & Q3). rewrite Eq. cbn [bind].
    exists (wo' * 64 + q). split; [reflexivity|].
    replace (wo' * 64 + q) with (64 * wo' + q) by lia.
    replace k with (cntl B (S pos) + rl) by lia. now apply F3.
Qed.

(** ** Distances *)
Lemma tb_pos_nonzero w i : tb w i = true -> (0 <? w)%N = true.
Proof.
  intros H. apply N.ltb_lt. destruct w; [|lia]. unfold tb in H. rewrite N.bits_0 in H. discriminate.
Qed.

Definition next_set (B : list bool) (p q : nat) : Prop :=
  p < q /\ nth q B false = true /\ forall i, p < i < q -> nth i B false = false.
Definition no_next (B : list bool) (p : nat) : Prop := forall i, p < i -> nth i B false = false.
Definition prev_set (B : list bool) (p q : nat) : Prop :=
  q < p /\ nth q B false = true /\ forall i, q < i < p -> nth i B false = false.
Definition no_prev (B : list bool) (p : nat) : Prop := forall i, i < p -> nth i B false = false.

Lemma next_loop_spec v B p todo : forall wordOff,
  bv_rep v B -> wordOff + todo = numWords (length B) - 1 -> p < 64 * S wordOff ->
  0 < length B -> p < length B ->
  (forall i, p < i < 64 * S wordOff -> nth i B false = false) ->
  exists d, next_loop todo v wordOff (64 * S wordOff - p) = Ok d /\
    ((exists q, next_set B p q /\ d = q - p) \/ (no_next B p /\ d = length B - p)).
Proof.
  induction todo as [|todo IH]; intros wordOff Hbv Hto Hp H0 HpB Hz.
  - cbn [next_loop]. destruct Hbv as (N1 & N2 & Hrep). rewrite N1.
    assert (Hnw : numWords (length B) = S wordOff).
    { assert (numWords (length B) > 0) by (unfold numWords; destruct (Nat.eqb_spec (length B mod 64) 0); lia). lia. }
    eexists. split; [reflexivity|]. right. split.
    + intros i Hi. destruct (Nat.lt_ge_cases i (64 * S wordOff)); [apply Hz; lia|].
      rewrite <- (proj2 Hrep). apply gbit_out. lia.
    + rewrite Hnw. replace (S wordOff - 1) with wordOff by lia. rewrite Nat.eqb_refl. cbn [andb].
      unfold numWords in Hnw. destruct (Nat.eqb_spec (length B mod 64) 0); cbn [negb]; lia.
  - cbn [next_loop]. pose proof Hbv as (N1 & N2 & Hrep).
    rewrite idx_nth by lia. cbn [bind]. set (w := nth (S wordOff) (bv_bits v) 0%N).
    destruct (N.ltb_spec 0 w) as [Hw|Hw].
    + destruct (ctz64_spec w) as [C1 C2]; [lia|].
      assert (Hc64 : ctz64 w < 64).
      { destruct (Nat.lt_ge_cases (ctz64 w) 64); auto. rewrite (tb_high w 64) in C1; auto; [discriminate|].
        apply words_ok_nth, Hrep. }
      eexists. split; [reflexivity|]. left. exists (64 * S wordOff + ctz64 w). split; [|lia].
      split; [lia|]. split.
      * rewrite <- (rep_word_tb _ B (S wordOff) (ctz64 w) Hrep Hc64). exact C1.
      * intros i Hi. destruct (Nat.lt_ge_cases i (64 * S wordOff)); [apply Hz; lia|].
        replace i with (64 * S wordOff + (i - 64 * S wordOff)) by lia.
        rewrite <- (rep_word_tb _ B (S wordOff) _ Hrep) by lia. apply C2. lia.
    + replace (64 * S wordOff - p + 64) with (64 * S (S wordOff) - p) by lia.
      apply IH; auto; try lia.
      intros i Hi. destruct (Nat.lt_ge_cases i (64 * S wordOff)); [apply Hz; lia|].
      replace i with (64 * S wordOff + (i - 64 * S wordOff)) by lia.
      rewrite <- (rep_word_tb _ B (S wordOff) _ Hrep) by lia.
      assert (Ew : nth (S wordOff) (bv_bits v) 0%N = 0%N) by (fold w; lia). rewrite Ew. unfold tb. apply N.bits_0.
Qed.

Theorem distanceToNextSetBit_correct v B p :
  bv_rep v B -> p < length B ->
  exists d, distanceToNextSetBit v p = Ok d /\
    ((exists q, next_set B p q /\ d = q - p) \/
     (no_next B p /\ d = if Nat.eqb ((p + 1) mod 64) 0 && Nat.eqb (p + 1) (length B) then 0 else length B - p)).
Proof.
  intros Hbv Hp. pose proof Hbv as (N1 & N2 & Hrep). unfold distanceToNextSetBit.
  pose proof (numWords_bound (length B)) as [W1 W2].
  destruct (Nat.leb_spec (length (bv_bits v)) ((p + 1) / 64)) as [Hl|Hl].
  - exists 0. split; [reflexivity|]. right.
    assert (p + 1 = length B) by lia. split.
    + intros i Hi. apply nth_overflow. lia.
    + rewrite H, Nat.eqb_refl. destruct (Nat.eqb_spec (length B mod 64) 0); [reflexivity|]. lia.
  - assert (Hne : Nat.eqb ((p + 1) mod 64) 0 && Nat.eqb (p + 1) (length B) = false).
    { destruct (Nat.eqb_spec ((p + 1) mod 64) 0), (Nat.eqb_spec (p + 1) (length B)); auto. lia. }
    rewrite Hne. rewrite idx_nth by lia. cbn [bind].
    set (wo := (p + 1) / 64) in *. set (bo := (p + 1) mod 64) in *.
    set (w := nth wo (bv_bits v) 0%N). set (t := shr64 w (N.of_nat bo)).
    assert (Ht : forall q, bo + q < 64 -> tb t q = nth (p + 1 + q) B false).
    { intros q Hq. unfold t, w. rewrite tb_shr64. rewrite (rep_word_tb _ B wo _ Hrep) by lia.
      f_equal. unfold wo, bo in *. lia. }
    destruct (N.ltb_spec 0 t) as [Htp|Htp].
    + destruct (ctz64_spec t) as [C1 C2]; [lia|].
      assert (Hc : bo + ctz64 t < 64).
      { destruct (Nat.lt_ge_cases (bo + ctz64 t) 64); auto. unfold t in C1. rewrite tb_shr64 in C1.
        fold t in C1. rewrite (tb_high w 64) in C1; [discriminate|apply words_ok_nth, Hrep|lia]. }
      eexists. split; [reflexivity|]. left. exists (p + 1 + ctz64 t). split; [|lia]. split; [lia|]. split.
      * rewrite <- Ht; auto.
      * intros i Hi. replace i with (p + 1 + (i - (p + 1))) by lia. rewrite <- Ht by lia. apply C2. lia.
    + assert (Hz : forall i, p < i < 64 * S wo -> nth i B false = false).
      { intros i Hi. replace i with (p + 1 + (i - (p + 1))) by lia. rewrite <- Ht by (unfold wo, bo in *; lia).
        assert (t = 0%N) as -> by lia. unfold tb. apply N.bits_0. }
      rewrite N1. destruct (Nat.eqb_spec wo (numWords (length B) - 1)) as [Ew|Ew].
      * eexists. split; [reflexivity|]. right. split; [|reflexivity].
        intros i Hi. destruct (Nat.lt_ge_cases i (64 * S wo)); [apply Hz; lia|]. apply nth_overflow. lia.
      * replace (1 + (64 - bo)) with (64 * S wo - p) by (unfold wo, bo; lia).
        apply next_loop_spec; auto; unfold wo, bo in *; try lia.
Qed.

Lemma clz64_spec w : (w < two64)%N -> w <> 0%N ->
  clz64 w < 64 /\ tb w (63 - clz64 w) = true /\ forall i, 63 - clz64 w < i -> tb w i = false.
Proof.
  intros Hw H. destruct (len64_spec w H) as (L0 & L1 & L2). unfold clz64.
  assert (len64 w <= 64).
  { destruct (Nat.le_gt_cases (len64 w) 64); auto. rewrite (tb_high w 64) in L1; [discriminate|auto|lia]. }
  split; [lia|]. replace (63 - (64 - len64 w)) with (len64 w - 1) by lia. split; [auto|].
  intros i Hi. apply L2. lia.
Qed.

Lemma prev_loop_spec v B p wordOff :
  bv_rep v B -> 64 * wordOff < p -> p <= length B ->
  (forall i, 64 * wordOff <= i < p -> nth i B false = false) ->
  exists d, prev_loop wordOff v (1 + (p - 64 * wordOff)) = Ok d /\
    ((exists q, prev_set B p q /\ d = p - q) \/ (no_prev B p /\ d = p + 1)).
Proof.
  intros Hbv. induction wordOff as [|wordOff IH]; intros Hp HpB Hz.
  - cbn [prev_loop]. eexists. split; [reflexivity|]. right. split; [|lia]. intros i Hi. apply Hz. lia.
  - cbn [prev_loop]. pose proof Hbv as (N1 & N2 & Hrep).
    pose proof (numWords_bound (length B)) as [W1 W2].
    rewrite idx_nth by lia. cbn [bind]. set (w := nth wordOff (bv_bits v) 0%N).
    assert (Hw64 : (w < two64)%N) by apply words_ok_nth, Hrep.
    destruct (N.ltb_spec 0 w) as [Hw|Hw].
    + destruct (clz64_spec w) as (C0 & C1 & C2); [auto|lia|].
      eexists. split; [reflexivity|]. left. exists (64 * wordOff + (63 - clz64 w)). split; [|lia].
      split; [lia|]. split.
      * rewrite <- (rep_word_tb _ B wordOff _ Hrep) by lia. exact C1.
      * intros i Hi. destruct (Nat.lt_ge_cases i (64 * S wordOff)); [|apply Hz; lia].
        replace i with (64 * wordOff + (i - 64 * wordOff)) by lia.
        rewrite <- (rep_word_tb _ B wordOff _ Hrep) by lia. apply C2. lia.
    + replace (1 + (p - 64 * S wordOff) + 64) with (1 + (p - 64 * wordOff)) by lia.
      apply IH; try lia. intros i Hi. destruct (Nat.lt_ge_cases i (64 * S wordOff)); [|apply Hz; lia].
      replace i with (64 * wordOff + (i - 64 * wordOff)) by lia.
      rewrite <- (rep_word_tb _ B wordOff _ Hrep) by lia.
      assert (Ew : nth wordOff (bv_bits v) 0%N = 0%N) by (fold w; lia). rewrite Ew. unfold tb. apply N.bits_0.
Qed.

Theorem distanceToPrevSetBit_correct v B p :
  bv_rep v B -> p <= length B ->
  exists d, distanceToPrevSetBit v p = Ok d /\
    ((exists q, prev_set B p q /\ d = p - q) \/ (no_prev B p /\ d = p + 1)).
Proof.
  intros Hbv Hp. pose proof Hbv as (N1 & N2 & Hrep). unfold distanceToPrevSetBit.
  pose proof (numWords_bound (length B)) as [W1 W2].
  destruct (Nat.eqb_spec p 0) as [->|Hp0].
  { exists 1. split; [reflexivity|]. right. split; [|lia]. intros i Hi. lia. }
  rewrite idx_nth by lia. cbn [bind].
  set (wo := (p - 1) / 64). set (bo := (p - 1) mod 64). set (w := nth wo (bv_bits v) 0%N).
  set (t := shl64 w (N.of_nat (64 - 1 - bo))).
  assert (Ht : forall q, q <= 63 -> tb t q = (Nat.leb (63 - bo) q && nth (64 * wo + (q - (63 - bo))) B false)).
  { intros q Hq. unfold t. rewrite tb_shl64.
    replace (64 - 1 - bo) with (63 - bo) by lia. bc; try reflexivity. apply (rep_word_tb _ B wo _ Hrep). unfold bo in *. lia. }
  destruct (N.ltb_spec 0 t) as [Htp|Htp].
  - destruct (clz64_spec t) as (C0 & C1 & C2); [apply shl64_lt|lia|].
    rewrite Ht in C1 by lia. apply andb_true_iff in C1 as [C1 C3]. apply Nat.leb_le in C1.
    eexists. split; [reflexivity|]. left. exists (64 * wo + (63 - clz64 t - (63 - bo))).
    split; [|unfold wo, bo in *; lia]. split; [unfold wo, bo in *; lia|]. split; [exact C3|].
    intros i Hi. specialize (C2 (63 - bo + (i - 64 * wo))).
    assert (Hlt : 63 - clz64 t < 63 - bo + (i - 64 * wo)) by (unfold wo, bo in *; lia).
    specialize (C2 Hlt). rewrite Ht in C2 by (unfold wo, bo in *; lia).
    destruct (Nat.leb_spec (63 - bo) (63 - bo + (i - 64 * wo))); [|lia]. cbn [andb] in C2.
    replace (64 * wo + (63 - bo + (i - 64 * wo) - (63 - bo))) with i in C2; [exact C2|]. unfold wo, bo in *; lia.
  - replace (1 + (bo + 1)) with (1 + (p - 64 * wo)) by (unfold wo, bo; lia).
    apply prev_loop_spec; auto; [unfold wo; lia|].
    intros i Hi. specialize (Ht (63 - bo + (i - 64 * wo))). rewrite (proj1 (N.le_0_r t)) in Ht by lia.
    unfold tb in Ht. rewrite N.bits_0 in Ht.
    destruct (Nat.leb_spec (63 - bo) (63 - bo + (i - 64 * wo))); [|lia]. cbn [andb] in Ht.
    replace (64 * wo + (63 - bo + (i - 64 * wo) - (63 - bo))) with i in Ht; [symmetry; apply Ht|]; unfold wo, bo in *; lia.
Qed.
