(** * SurfExact: Get hits exactly the queries that agree with what is kept of a stored key. *)
From Verif Require Import Base BitsModel BitsFacts VecModel VecProofs VecProofs2 SurfModel SurfTrie SurfSuffix SurfBuild SurfDense SurfEnc SurfBuildTop SurfGet SurfGet2 SurfSpec SurfWalk SurfTop SurfGetSpec.
Ltac Zify.zify_post_hook ::= Z.div_mod_to_equations.

(* ------------------------------------------------------------------ *)
(** ** Suffix values *)
Definition num (l : list nat) (a : N) : N := fold_left (fun a b => (a * 256 + N.of_nat b)%N) l a.
Definition bytes_ok (l : list nat) : Prop := Forall (fun b => b < 256) l.

Lemma num_bound l : bytes_ok l -> forall a k, (a < 2 ^ N.of_nat (8 * k))%N -> (num l a < 2 ^ N.of_nat (8 * (k + length l)))%N.
Proof.
  induction 1 as [|b l Hb Hl IH]; intros a k Ha; cbn [num fold_left length]; [now rewrite Nat.add_0_r|].
  replace (k + S (length l)) with (S k + length l) by lia. apply (IH (a * 256 + N.of_nat b)%N (S k)).
  replace (8 * S k) with (8 * k + 8) by lia. rewrite pow2_add. change (2 ^ N.of_nat 8)%N with 256%N. lia.
Qed.

Lemma num_inj l1 : forall l2 a1 a2, length l1 = length l2 -> bytes_ok l1 -> bytes_ok l2 -> num l1 a1 = num l2 a2 -> a1 = a2 /\ l1 = l2.
Proof.
  induction l1 as [|x l1 IH]; intros [|y l2] a1 a2 L B1 B2 E; cbn [length] in L; try lia; [auto|].
  inversion B1; inversion B2; subst. cbn [num fold_left] in E. apply IH in E as (E & ->); auto.
  assert (a1 = a2 /\ x = y) as (-> & ->) by lia. auto.
Qed.

Lemma num_zero l : bytes_ok l -> (num l 0 = 0%N <-> forall x, In x l -> x = 0).
Proof.
  intros B. assert (Z : forall n, num (repeat 0 n) 0 = 0%N) by (induction n; cbn; auto).
  split.
  - intros E. rewrite <- (Z (length l)) in E. apply num_inj in E as (_ & E); auto.
    + intros x Hx. rewrite E in Hx. now apply repeat_spec in Hx.
    + now rewrite repeat_length.
    + apply Forall_forall. intros x Hx. apply repeat_spec in Hx. lia.
  - intros H. replace l with (repeat 0 (length l)); auto. clear -H. induction l as [|a l IH]; [reflexivity|]. cbn [length repeat]. rewrite (H a) at 1 by now left.
    f_equal. apply IH. intros x Hx. apply H. now right.
Qed.

Lemma real_loop_val todo : forall i k key s, wf_bytes key = true -> i + todo <= length key -> k + todo <= 8 -> (s < 2 ^ N.of_nat (8 * k))%N ->
  real_suffix_loop todo i key s = Ok (num (map (fun j => nth j key 0) (seq i todo)) s).
Proof.
  induction todo as [|todo IH]; intros i k key s W L K Hs; cbn [real_suffix_loop seq map num fold_left]; [reflexivity|].
  rewrite (idx_in key i 0) by lia. cbn [bind].
  assert (Hb : nth i key 0 < 256).
  { unfold wf_bytes in W. rewrite forallb_forall in W. apply Nat.ltb_lt, W. apply nth_In. lia. }
  assert (B : (s * 256 + N.of_nat (nth i key 0%nat) < 2 ^ N.of_nat (8 * S k))%N).
  { replace (8 * S k) with (8 * k + 8) by lia. rewrite pow2_add. change (2 ^ N.of_nat 8)%N with 256%N. lia. }
  assert (B64 : (2 ^ N.of_nat (8 * S k) <= two64)%N).
  { change two64 with (2 ^ N.of_nat 64)%N. apply N.pow_le_mono_r; lia. }
  assert (EQ : w64 (shl64 s 8 + N.of_nat (nth i key 0)) = (s * 256 + N.of_nat (nth i key 0%nat))%N).
  { unfold shl64. rewrite N.shiftl_mul_pow2. change (2 ^ 8)%N with 256%N. rewrite (w64_small (s * 256)) by lia. apply w64_small. lia. }
  rewrite EQ. apply (IH (S i) (S k)); auto; lia.
Qed.

Definition enc (r : nat) (p : list nat * nat) : N := (num (fst p) 0 * 2 ^ N.of_nat (r mod 8) + N.of_nat (snd p))%N.
Definition part_ok (r : nat) (p : list nat * nat) : Prop := length (fst p) = r / 8 /\ bytes_ok (fst p) /\ (N.of_nat (snd p) < 2 ^ N.of_nat (r mod 8))%N.

Lemma enc_inj r p p' : part_ok r p -> part_ok r p' -> enc r p = enc r p' -> p = p'.
Proof.
  destruct p as [l x], p' as [l' x']. intros (L & B & X) (L' & B' & X') E. unfold enc in E. cbn [fst snd] in *.
  assert (P : (0 < 2 ^ N.of_nat (r mod 8))%N) by apply pow2_nat_pos. set (m := (2 ^ N.of_nat (r mod 8))%N) in *.
  assert (E1 : num l 0 = num l' 0) by nia. assert (E2 : x = x') by nia. subst x'.
  apply num_inj in E1 as (_ & ->); auto. congruence.
Qed.
Lemma enc_zero r p : part_ok r p -> (enc r p = 0%N <-> zero_part p).
Proof.
  destruct p as [l x]. intros (L & B & X). unfold enc, zero_part. cbn [fst snd] in *. rewrite <- num_zero by auto.
  assert (P : (0 < 2 ^ N.of_nat (r mod 8))%N) by apply pow2_nat_pos. split; [intros E; split; nia|intros (-> & ->); lia].
Qed.

Lemma nth_byte key i : wf_bytes key = true -> nth i key 0 < 256.
Proof.
  intros W. destruct (Nat.lt_ge_cases i (length key)) as [L|L]; [|rewrite nth_overflow by auto; lia].
  unfold wf_bytes in W. rewrite forallb_forall in W. apply Nat.ltb_lt, W. now apply nth_In.
Qed.
Lemma top_bits b o : b < 256 -> o < 8 -> (N.of_nat (b / 2 ^ (8 - o)) < 2 ^ N.of_nat o)%N.
Proof.
  intros B O. rewrite Nat2N.inj_div, Nat2N.inj_pow. apply N.div_lt_upper_bound; [apply N.pow_nonzero; discriminate|].
  change (N.of_nat 2) with 2%N. rewrite <- pow2_add. replace (8 - o + o) with 8 by lia. change (2 ^ N.of_nat 8)%N with 256%N. lia.
Qed.
Lemma real_part_ok L r key p : wf_bytes key = true -> real_part L r key = Some p -> part_ok r p.
Proof.
  intros W E. unfold real_part in E. destruct (Nat.leb_spec r (8 * (length key - L))); [|discriminate]. injection E as <-.
  split; [|split]; cbn [fst snd].
  - now rewrite map_length, seq_length.
  - apply Forall_forall. intros x Hx. apply in_map_iff in Hx as (i & <- & _). now apply nth_byte.
  - apply top_bits; [now apply nth_byte|lia].
Qed.
Lemma real_or_zero_ok L r key : wf_bytes key = true -> part_ok r (real_or_zero L r key).
Proof.
  intros W. unfold real_or_zero. destruct (real_part L r key) as [p|] eqn:E; [eapply real_part_ok; eauto|].
  split; [|split]; cbn [fst snd]; [apply repeat_length|apply Forall_forall; intros x Hx; apply repeat_spec in Hx; lia|apply pow2_nat_pos].
Qed.

Lemma real_val L r key : wf_bytes key = true -> 1 <= r -> r <= 64 -> constructRealSuffix key L r = Ok (enc r (real_or_zero L r key)).
Proof.
  intros W R1 R64. unfold constructRealSuffix, real_or_zero, real_part.
  destruct (Nat.leb_spec r (8 * (length key - L))) as [G|G].
  2: { replace (Nat.ltb (length key) L || Nat.ltb ((length key - L) * 8) r) with true.
       - f_equal. symmetry. apply enc_zero; [|split; [intros x Hx; now apply repeat_spec in Hx|reflexivity]].
         split; [apply repeat_length|split; [apply Forall_forall; intros x Hx; apply repeat_spec in Hx; lia|apply pow2_nat_pos]].
       - symmetry. apply orb_true_iff. right. apply Nat.ltb_lt. lia. }
  replace (Nat.ltb (length key) L || Nat.ltb ((length key - L) * 8) r) with false.
  2: { symmetry. apply orb_false_iff. split; apply Nat.ltb_ge; lia. }
  assert (S : (if Nat.ltb 0 (r / 8) then b <- idx key L ;; real_suffix_loop (r / 8 - 1) 1 key (N.of_nat b) else Ok 0%N) =
     Ok (num (map (fun i => nth (if Nat.eqb i 0 then L else i) key 0) (seq 0 (r / 8))) 0)).
  { destruct (Nat.ltb_spec 0 (r / 8)) as [P|P].
    - rewrite (idx_in key L 0) by lia. cbn [bind]. pose proof (nth_byte key L W) as HB.
      rewrite (real_loop_val (r / 8 - 1) 1 1 key _ W); [|lia|lia|change (2 ^ N.of_nat (8 * 1))%N with 256%N; lia].
      f_equal. destruct (r / 8) as [|n]; [lia|]. replace (S n - 1) with n by lia. cbn [seq map num fold_left Nat.eqb].
      rewrite N.mul_0_l, N.add_0_l. unfold num. f_equal. apply map_ext_in. intros i Hi. apply in_seq in Hi. destruct (Nat.eqb_spec i 0); [lia|reflexivity].
    - replace (r / 8) with 0 by lia. reflexivity. }
  rewrite S. cbn [bind]. unfold enc. cbn [fst snd].
  set (l := map (fun i => nth (if Nat.eqb i 0 then L else i) key 0) (seq 0 (r / 8))).
  pose proof (nth_byte key (L + r / 8) W) as HB.
  destruct (Nat.ltb_spec 0 (r mod 8)) as [P|P].
  - rewrite (idx_in key (L + r / 8) 0) by lia. cbn [bind]. f_equal.
    assert (B : (num l 0 < 2 ^ N.of_nat (8 * (r / 8)))%N).
    { replace (8 * (r / 8)) with (8 * (0 + length l)) by (unfold l; rewrite map_length, seq_length; lia). apply num_bound; [|reflexivity].
      apply Forall_forall. intros x Hx. apply in_map_iff in Hx as (i & <- & _). now apply nth_byte. }
    assert (B64 : (2 ^ N.of_nat (8 * (r / 8)) * 2 ^ N.of_nat (r mod 8) <= two64)%N).
    { rewrite <- pow2_add. change two64 with (2 ^ N.of_nat 64)%N. apply N.pow_le_mono_r; lia. }
    unfold shl64, shr64. rewrite N.shiftl_mul_pow2, N.shiftr_div_pow2.
    assert (P0 : (0 < 2 ^ N.of_nat (r mod 8))%N) by apply pow2_nat_pos. assert (P1 : (0 < 2 ^ N.of_nat (8 - r mod 8))%N) by apply pow2_nat_pos.
    assert (PM : (2 ^ N.of_nat (8 - r mod 8) * 2 ^ N.of_nat (r mod 8) = 256)%N).
    { rewrite <- pow2_add. replace (8 - r mod 8 + r mod 8) with 8 by lia. reflexivity. }
    assert (D : (N.of_nat (nth (L + r / 8) key 0%nat) / 2 ^ N.of_nat (8 - r mod 8) < 2 ^ N.of_nat (r mod 8))%N).
    { apply N.div_lt_upper_bound; [lia|]. rewrite PM. lia. }
    assert (DE : (N.of_nat (nth (L + r / 8) key 0%nat) / 2 ^ N.of_nat (8 - r mod 8))%N = N.of_nat (nth (L + r / 8) key 0 / 2 ^ (8 - r mod 8))).
    { rewrite Nat2N.inj_div, Nat2N.inj_pow. reflexivity. }
    rewrite DE in *. rewrite (w64_small (num l 0 * _)) by nia. apply w64_small. nia.
  - replace (r mod 8) with 0 by lia. cbn [Nat.sub]. rewrite (Nat.div_small _ (2 ^ 8)) by (change (2 ^ 8) with 256; lia).
    change (2 ^ N.of_nat 0)%N with 1%N. f_equal. lia.
Qed.

Lemma hash_bits fp key h j : h <= 57 -> j < h -> tb (constructHashSuffix fp key h) j = N.testbit (fp key) (N.of_nat (7 + j)).
Proof.
  intros H J. unfold constructHashSuffix. rewrite sub32_64 by lia.
  assert (S7 : sub32 (N.of_nat (64 - h)) 7 = N.of_nat (57 - h)).
  { unfold sub32, two32. change (2 ^ 32)%N with 4294967296%N. change (7 mod 4294967296)%N with 7%N.
    replace (N.of_nat (64 - h) + 4294967296 - 7)%N with (N.of_nat (57 - h) + 1 * 4294967296)%N by lia.
    rewrite N.mod_add by discriminate. apply N.mod_small. lia. }
  rewrite S7. unfold shrv, shlv. destruct (N.ltb_spec (N.of_nat (64 - h)) 64); [|lia]. destruct (N.ltb_spec (N.of_nat (57 - h)) 64); [|lia].
  rewrite tb_shr64, tb_shl64, tb_w64. replace (j + (64 - h) - (57 - h)) with (7 + j) by lia.
  destruct (Nat.leb_spec (57 - h) (j + (64 - h))); [|lia]. destruct (Nat.ltb_spec (j + (64 - h)) 64); [|lia]. destruct (Nat.ltb_spec (7 + j) 64); [|lia].
  reflexivity.
Qed.
Lemma hash_none fp key h : 57 < h -> h <= 64 -> constructHashSuffix fp key h = 0%N.
Proof.
  intros H H64. unfold constructHashSuffix. rewrite sub32_64 by lia.
  assert (S7 : (64 <= sub32 (N.of_nat (64 - h)) 7)%N).
  { unfold sub32, two32. change (2 ^ 32)%N with 4294967296%N. change (7 mod 4294967296)%N with 7%N. rewrite N.mod_small by lia. lia. }
  unfold shrv, shlv. destruct (N.ltb_spec (sub32 (N.of_nat (64 - h)) 7) 64); [lia|].
  destruct (N.ltb_spec (N.of_nat (64 - h)) 64); auto. unfold shr64. apply N.shiftr_0_l.
Qed.
Lemma hash_same fp h k q : h <= 64 -> (constructHashSuffix fp k h = constructHashSuffix fp q h <-> same_hash fp h k q).
Proof.
  intros H. unfold same_hash. destruct (Nat.le_gt_cases h 57) as [L|L].
  - split.
    + intros E _ j J. rewrite <- !(hash_bits fp _ h j) by auto. now rewrite E.
    + intros E. apply tb_inj. intros j. destruct (Nat.lt_ge_cases j h) as [J|J].
      * rewrite !hash_bits by auto. auto.
      * rewrite !(tb_high _ h j) by (auto; now apply constructHashSuffix_bound). reflexivity.
  - rewrite !hash_none by auto. split; auto. intros _ X. lia.
Qed.

Lemma part_bound r p : part_ok r p -> (enc r p < 2 ^ N.of_nat r)%N.
Proof.
  destruct p as [l x]. intros (L & B & X). unfold enc. cbn [fst snd] in *. pose proof (num_bound l B 0%N 0 eq_refl) as NB. rewrite L in NB. cbn [Nat.add] in NB.
  assert (E : (2 ^ N.of_nat r = 2 ^ N.of_nat (8 * (r / 8)) * 2 ^ N.of_nat (r mod 8))%N) by (rewrite <- pow2_add; do 2 f_equal; lia).
  rewrite E. nia.
Qed.

Lemma mixed_inj r a b x y : (x < 2 ^ N.of_nat r)%N -> (y < 2 ^ N.of_nat r)%N -> (forall i, 64 <= i + r -> tb a i = tb b i) ->
  N.lor (shlv a (N.of_nat r)) x = N.lor (shlv b (N.of_nat r)) y -> a = b /\ x = y.
Proof.
  intros X Y H E. assert (T : forall i, tb (N.lor (shlv a (N.of_nat r)) x) i = tb (N.lor (shlv b (N.of_nat r)) y) i) by (intros; now rewrite E).
  split; apply tb_inj; intros i.
  - destruct (Nat.lt_ge_cases (i + r) 64) as [L|L]; [|now apply H]. specialize (T (i + r)). rewrite !tb_lor, !tb_shlv in T.
    rewrite !(tb_high _ r (i + r)) in T by (auto; lia). destruct (Nat.leb_spec r (i + r)); [|lia]. destruct (Nat.ltb_spec (i + r) 64); [|lia].
    cbn [andb] in T. rewrite !orb_false_r in T. now replace (i + r - r) with i in T by lia.
  - destruct (Nat.lt_ge_cases i r) as [L|L]; [|rewrite !(tb_high _ r i) by auto; reflexivity]. specialize (T i). rewrite !tb_lor, !tb_shlv in T.
    destruct (Nat.leb_spec r i); [lia|]. exact T.
Qed.

Lemma smatch_agrees fp vs h r L k q : h + r <= 64 -> wf_bytes k = true -> wf_bytes q = true ->
  (smatch fp (mkcfg vs h r) (sfx fp (c_type (mkcfg vs h r)) h r k L) q L = true <-> suffix_agrees fp h r L k q).
Proof.
  intros H Wk Wq. unfold smatch. replace (c_hashLen (mkcfg vs h r)) with h by reflexivity. replace (c_realLen (mkcfg vs h r)) with r by reflexivity.
  unfold suffix_agrees, sfx.
  destruct h as [|h'], r as [|r'].
  - cbn. tauto.
  - change (c_type (mkcfg vs 0 (S r'))) with RealSuffix. set (r := S r') in *. cbn [constructSuffix]. rewrite !real_val by (auto; lia). rewrite orb_true_iff, andb_true_iff, !N.eqb_eq, negb_true_iff, orb_false_iff, !Nat.ltb_ge.
    rewrite (enc_zero r) by now apply real_or_zero_ok. split.
    + intros [Z|((G1 & G2) & E)]; [now left|]. apply enc_inj in E; try now apply real_or_zero_ok.
      assert (Gq : exists p, real_part L r q = Some p). { unfold real_part. destruct (Nat.leb_spec r (8 * (length q - L))); [eauto|lia]. }
      destruct Gq as (p & Eq). unfold real_or_zero in *. rewrite Eq in E. destruct (real_part L r k) as [pk|] eqn:Ek; [right; congruence|].
      left. split; cbn [fst snd]; [intros x Hx; now apply repeat_spec in Hx|reflexivity].
    + intros [Z|E]; [now left|]. destruct (real_part L r k) as [pk|] eqn:Ek.
      * right. split; [|unfold real_or_zero; now rewrite Ek, <- E]. symmetry in E. unfold real_part in E. destruct (Nat.leb_spec r (8 * (length q - L))); [|discriminate]. lia.
      * left. unfold real_or_zero. rewrite Ek. split; cbn [fst snd]; [intros x Hx; now apply repeat_spec in Hx|reflexivity].
  - change (c_type (mkcfg vs (S h') 0)) with HashSuffix. set (h := S h') in *. cbn [constructSuffix]. rewrite N.eqb_eq. apply hash_same. lia.
  - change (c_type (mkcfg vs (S h') (S r'))) with MixedSuffix. set (h := S h') in *. set (r := S r') in *. cbn [constructSuffix]. unfold constructMixedSuffix. rewrite !real_val by (auto; lia). cbn [bind]. rewrite N.eqb_eq. split.
    + intros E. apply mixed_inj in E as (E1 & E2); try (apply part_bound; now apply real_or_zero_ok).
      * split; [apply hash_same; auto; lia|]. apply enc_inj in E2; auto; now apply real_or_zero_ok.
      * intros i Hi. rewrite !(tb_high _ h i) by (try lia; apply constructHashSuffix_bound; lia). reflexivity.
    + intros (E1 & E2). apply hash_same in E1; [|lia]. now rewrite E1, E2.
Qed.

(* ------------------------------------------------------------------ *)
(** ** The walk *)
Lemma dprefix_cover keys s s' p : In s' keys -> s' <> s -> is_prefix p s -> is_prefix p s' -> is_prefix p (dprefix keys s).
Proof.
  intros H NE P P'. unfold dprefix. destruct (find (unique_prefix keys s) (seq 1 (length s))) as [m|] eqn:F; auto.
  apply find_some in F as (F1 & F2). apply (is_prefix_comparable _ _ s); auto; [apply is_prefix_firstn|].
  destruct (Nat.le_gt_cases (length p) (length (firstn m s))) as [|G]; auto. exfalso. apply NE.
  apply (proj1 (unique_prefix_iff _ _ _) F2); auto. apply (is_prefix_trans _ p); auto. apply (is_prefix_comparable _ _ s); auto; [apply is_prefix_firstn|lia].
Qed.

Section Walk.
Variable fp : bytes -> N.
Variable c : config.

Lemma aget_unfold kvs f q dl n : ~ proper_prefix_of_some (map fst kvs) q -> ninv kvs n -> is_prefix (npath n) q ->
  aget fp c (S f) dl n q = if is_prefixb (nprefix n) (skipn (tn_pd n) q) then match alook n q with None => None
     | Some it => if hasc it then aget fp c f (pred dl) (mkchild it) q else leafres fp c it q (tn_d n + 1) end else None.
Proof.
  intros HN NI P. pose proof (ni_wf _ _ NI) as W. pose proof (w_pd n W) as WP.
  assert (NQ : is_prefix q (ndpath n) -> False).
  { intros PQ. destruct (key0_in n W) as (e & He & _).
    assert (EQ : forall e, In e (tn_kvs n) -> fst e = q).
    { intros e' He'. destruct (list_eq_dec Nat.eq_dec (fst e') q) as [|NE]; auto. exfalso. apply HN. exists (fst e'). split; [apply in_map; now apply (ni_incl _ _ NI)|].
      split; auto. eapply is_prefix_trans; [exact PQ|now apply ndpath_prefix]. }
    destruct (Nat.lt_ge_cases (length (tn_kvs n)) 2) as [L|L].
    - pose proof (w_ne n W) as NE. pose proof (w_one n W) as O. destruct (tn_kvs n) as [|a [|b r]] eqn:K; cbn [length] in *; try congruence; try lia.
      specialize (O eq_refl). cbn [is_term] in O. apply Nat.leb_gt in O. specialize (EQ a (or_introl eq_refl)). rewrite EQ in O.
      pose proof (is_prefix_length _ _ PQ) as LQ. rewrite ndpath_length in LQ by auto. lia.
    - destruct (other_key n e W L He) as (e' & He' & NE). rewrite (EQ e He), (EQ e' He') in NE. congruence. }
  assert (Lp : tn_pd n < length q).
  { destruct (Nat.lt_ge_cases (tn_pd n) (length q)); auto. exfalso. apply NQ. replace q with (npath n); [now apply npath_ndpath|]. apply is_prefix_eq; auto. rewrite npath_length; auto. }
  cbn [aget]. destruct (is_prefixb (nprefix n) (skipn (tn_pd n) q)) eqn:PX.
  - apply prefix_check in PX; auto. assert (Ld : tn_d n < length q).
    { destruct (Nat.lt_ge_cases (tn_d n) (length q)); auto. exfalso. apply NQ. replace q with (ndpath n); [apply is_prefix_refl|]. apply is_prefix_eq; auto. rewrite ndpath_length; auto. }
    destruct (Nat.leb_spec (length q) (tn_pd n)); [lia|]. destruct (Nat.leb_spec (length q) (tn_d n)); [lia|]. now destruct dl.
  - destruct (Nat.leb_spec (length q) (tn_pd n)); [lia|]. now destruct dl.
Qed.

Definition leaf_match (e : kv) (q : bytes) (L : nat) : bool := smatch fp c (sfx fp (c_type c) (c_hashLen c) (c_realLen c) (fst e) L) q L.

Lemma leafres_leaf n it e q : In it (items n) -> i_grp it = [e] ->
  leafres fp c it q (tn_d n + 1) = if leaf_match e q (tn_d n + 1) then Some (firstn (c_valueSize c) (snd e)) else None.
Proof.
  intros Hit G. unfold leafres, leaf_match, sufv, ivalue, i_kv. rewrite G, (item_depth n it Hit). reflexivity.
Qed.

Lemma leaf_len kvs n it e : increasing (map fst kvs) -> ninv kvs n -> two_or_top n -> In it (items n) -> i_term it = false -> i_grp it = [e] ->
  dprefix (map fst kvs) (fst e) = ndpath n ++ [i_label it] /\ length (dprefix (map fst kvs) (fst e)) = tn_d n + 1.
Proof.
  intros HI NI TW Hit T G. assert (E : dprefix (map fst kvs) (fst e) = ndpath n ++ [i_label it]).
  { rewrite (leaf_dprefix kvs n it e HI NI TW Hit G). unfold ikey. now rewrite T. }
  split; auto. rewrite E, app_length, ndpath_length by apply NI. reflexivity.
Qed.

Lemma label_prefix n it e : nwf n -> In it (items n) -> i_term it = false -> In e (i_grp it) -> is_prefix (ndpath n ++ [i_label it]) (fst e).
Proof.
  intros W Hit T He. destruct (item_noterm n it e W Hit T He) as (H1 & H2 & H3). pose proof (ndpath_prefix n e W (item_grp_incl n it Hit e He)) as P.
  apply is_prefix_firstn_iff in P. rewrite ndpath_length in P by auto. rewrite <- P, <- H3, <- firstn_S_nth by auto. apply is_prefix_firstn.
Qed.

Lemma alook_label n it q : nwf n -> In it (items n) -> i_term it = false -> is_prefix (ndpath n ++ [i_label it]) q -> alook n q = Some it.
Proof.
  intros W Hit T P. assert (B : nth (tn_d n) q 0 = i_label it).
  { destruct P as (x & ->). rewrite <- app_assoc, app_nth2 by (rewrite ndpath_length; auto). rewrite ndpath_length, Nat.sub_diag by auto. reflexivity. }
  destruct (alook n q) as [it'|] eqn:AL.
  - f_equal. symmetry. apply (alook_unique n q it' it W AL Hit); auto. unfold noterm. now rewrite T.
  - exfalso. pose proof (find_none _ _ AL it Hit) as X. cbn beta in X. unfold noterm in X. rewrite T, B, Nat.eqb_refl in X. discriminate.
Qed.

Lemma prefix_child (n : tnode) q : nwf n -> is_prefix (ndpath n) q -> forall it, In it (items n) -> i_label it = nth (tn_d n) q 0 -> tn_d n < length q ->
  is_prefix (ndpath n ++ [i_label it]) q.
Proof.
  intros W P it Hit B L. apply is_prefix_firstn_iff in P. rewrite ndpath_length in P by auto. rewrite <- P, B, <- firstn_S_nth by auto. apply is_prefix_firstn.
Qed.

Lemma leaf_alone kvs n it e : ninv kvs n -> In it (items n) -> i_term it = false -> i_grp it = [e] -> ~ continued (map fst kvs) (fst e).
Proof.
  intros NI Hit T G. pose proof (ni_wf _ _ NI) as W. assert (Hg : In e (i_grp it)) by (rewrite G; left; auto).
  intros (k' & Hk & PK & NE). apply in_map_iff in Hk as (e' & <- & He'). apply NE.
  assert (P' : is_prefix (ndpath n ++ [i_label it]) (fst e')) by (apply (is_prefix_trans _ (fst e)); auto; apply label_prefix; auto).
  assert (In e' (tn_kvs n)).
  { apply (ni_all _ _ NI); auto. eapply is_prefix_trans; [now apply npath_ndpath|]. eapply is_prefix_trans; [|exact P']. eexists; reflexivity. }
  assert (He2 : In e' (i_grp it)).
  { pose proof (is_prefix_length _ _ P') as LP. rewrite app_length, ndpath_length in LP by auto. cbn [length] in LP. apply (item_grp_noterm n it e' W Hit T); auto; [lia|].
    destruct P' as (x & P'). rewrite P', <- app_assoc, app_nth2 by (rewrite ndpath_length; auto). rewrite ndpath_length, Nat.sub_diag by auto. reflexivity. }
  rewrite G in He2. destruct He2 as [<-|[]]. reflexivity.
Qed.

Theorem aget_leaf kvs q f : increasing (map fst kvs) -> ~ proper_prefix_of_some (map fst kvs) q -> forall dl n e, ninv kvs n -> two_or_top n -> is_prefix (npath n) q ->
  In e (tn_kvs n) -> ~ continued (map fst kvs) (fst e) -> is_prefix (dprefix (map fst kvs) (fst e)) q -> length q < f + tn_pd n ->
  aget fp c f dl n q = if leaf_match e q (length (dprefix (map fst kvs) (fst e))) then Some (firstn (c_valueSize c) (snd e)) else None.
Proof.
  intros HI HN. induction f as [|f IH]; intros dl n e NI TW P He NC PQ L.
  { exfalso. apply is_prefix_length in P. rewrite npath_length in P by apply NI. lia. }
  pose proof (ni_wf _ _ NI) as W. destruct (item_of n e He) as (it & Hit & Hg).
  destruct (i_term it) eqn:T.
  { exfalso. destruct (item_term n it W Hit T) as (e0 & r & K & G & E0 & NE & _). rewrite G in Hg. destruct Hg as [<-|[]]. apply NC.
    destruct r as [|x r]; [congruence|]. exists (fst x). assert (Hx : In x (tn_kvs n)) by (rewrite K; right; left; auto).
    split; [apply in_map; now apply (ni_incl _ _ NI)|]. split; [rewrite E0; now apply ndpath_prefix|]. pose proof (w_inc n W) as WI. rewrite K in WI. cbn [map increasing] in WI.
    destruct WI as [WI _]. intros E. rewrite E in WI. now apply blt_irrefl in WI. }
  assert (PC : is_prefix (ndpath n ++ [i_label it]) q).
  { destruct (hasc it) eqn:Hc.
    - apply (is_prefix_trans _ (dprefix (map fst kvs) (fst e))); auto.
      pose proof (child_ninv kvs n it NI Hit Hc) as CI. pose proof (child_two it Hc) as CT.
      destruct (other_key (mkchild it) e (ni_wf _ _ CI)) as (e' & He' & NE); [|exact Hg|].
      + unfold hasc in Hc. apply Nat.ltb_lt in Hc. change (tn_kvs (mkchild it)) with (i_grp it). lia.
      + apply (dprefix_cover _ _ (fst e')); auto; [apply in_map; now apply (ni_incl _ _ CI)| |]; apply label_prefix; auto.
    - destruct (item_leaf n it Hit Hc) as (e' & G). rewrite G in Hg. destruct Hg as [<-|[]]. destruct (leaf_len kvs n it e' HI NI TW Hit T G) as (<- & _). exact PQ. }
  rewrite (aget_unfold kvs f q dl n HN NI P).
  replace (is_prefixb (nprefix n) (skipn (tn_pd n) q)) with true.
  2: { symmetry. apply prefix_check; auto. eapply is_prefix_trans; [|exact PC]. eexists; reflexivity. }
  rewrite (alook_label n it q W Hit T PC). destruct (hasc it) eqn:Hc.
  - apply IH; auto.
    + eapply child_ninv; eauto.
    + now apply child_two.
    + now rewrite (child_npath n it W Hit Hc).
    + rewrite (child_pd n it Hit). pose proof (w_pd n W). lia.
  - destruct (item_leaf n it Hit Hc) as (e' & G). rewrite G in Hg. destruct Hg as [<-|[]]. destruct (leaf_len kvs n it e' HI NI TW Hit T G) as (_ & ->).
    now apply leafres_leaf.
Qed.

Theorem aget_hit kvs q f : increasing (map fst kvs) -> ~ proper_prefix_of_some (map fst kvs) q -> forall dl n v, ninv kvs n -> two_or_top n -> is_prefix (npath n) q ->
  aget fp c f dl n q = Some v -> exists e, In e kvs /\ ~ continued (map fst kvs) (fst e) /\ is_prefix (dprefix (map fst kvs) (fst e)) q.
Proof.
  intros HI HN. induction f as [|f IH]; intros dl n v NI TW P H; [discriminate|]. pose proof (ni_wf _ _ NI) as W.
  rewrite (aget_unfold kvs f q dl n HN NI P) in H. destruct (is_prefixb _ _) eqn:PX; [|discriminate]. apply prefix_check in PX; auto.
  destruct (alook n q) as [it|] eqn:AL; [|discriminate]. destruct (alook_split n q it AL) as (A & B & EI & T & LB).
  assert (Hit : In it (items n)) by (rewrite EI; apply in_or_app; right; left; auto).
  assert (Ld : tn_d n < length q).
  { destruct (Nat.lt_ge_cases (tn_d n) (length q)) as [|G]; auto. exfalso. 
    assert (EQ : q = ndpath n) by (symmetry; apply is_prefix_eq; auto; rewrite ndpath_length; auto).
    destruct (i_grp it) as [|e g] eqn:Gr; [now apply (item_grp_ne n it Hit)|]. assert (Hg : In e (i_grp it)) by (rewrite Gr; left; auto).
    apply HN. exists (fst e). split; [apply in_map; apply (ni_incl _ _ NI); eapply item_grp_incl; eauto|].
    split; [rewrite EQ; apply ndpath_prefix; auto; eapply item_grp_incl; eauto|].
    intros X. destruct (item_noterm n it e W Hit T Hg) as (_ & L & _). rewrite X in L. lia. }
  pose proof (prefix_child n q W PX it Hit LB Ld) as PC. destruct (hasc it) eqn:Hc.
  - eapply IH; [eapply child_ninv; eauto|now apply child_two| |exact H]. now rewrite (child_npath n it W Hit Hc).
  - destruct (item_leaf n it Hit Hc) as (e & G). assert (Hg : In e (i_grp it)) by (rewrite G; left; auto). exists e.
    destruct (leaf_len kvs n it e HI NI TW Hit T G) as (E & _). rewrite E. split; [apply (ni_incl _ _ NI); eapply item_grp_incl; eauto|]. split; auto.
    eapply leaf_alone; eauto.
Qed.
End Walk.

(* ------------------------------------------------------------------ *)
(** ** Get *)
Lemma root_args fp vs h r keys vals hint s : valid_input vs h r keys vals -> built fp vs h r keys vals hint s ->
  map fst (combine keys vals) = keys /\ ninv (combine keys vals) (mknode (combine keys vals) 0) /\ two_or_top (mknode (combine keys vals) 0).
Proof.
  intros V B. destruct (built_rep fp vs h r keys vals hint s V B) as (cut' & R & RW & CO & LO & MF & TH). split; auto. split; [now apply root_ninv|now apply root_two].
Qed.

Theorem get_exact fp vs h r keys vals hint s q : valid_input vs h r keys vals -> built fp vs h r keys vals hint s -> wf_bytes q = true ->
  ~ proper_prefix_of_some keys q ->
  (forall v, surf_get fp s q = Ok (Some v) <-> exists i k w, nth_error keys i = Some k /\ nth_error vals i = Some w /\ v = firstn vs w /\
     ~ continued keys k /\ is_prefix (dprefix keys k) q /\ suffix_agrees fp h r (length (dprefix keys k)) k q).
Proof.
  intros V B Hq HN v. destruct (get_aget _ _ _ _ _ _ _ _ q V B Hq) as (cut & ->).
  destruct (root_args fp vs h r keys vals hint s V B) as (MF & NI & TW). set (kvs := combine keys vals) in *.
  assert (HI : increasing (map fst kvs)) by (rewrite MF; apply V). assert (HN' : ~ proper_prefix_of_some (map fst kvs) q) by now rewrite MF.
  assert (LF : forall e, In e kvs -> ~ continued keys (fst e) -> is_prefix (dprefix keys (fst e)) q ->
     aget fp (mkcfg vs h r) (S (length q)) cut (mknode kvs 0) q = if leaf_match fp (mkcfg vs h r) e q (length (dprefix keys (fst e))) then Some (firstn vs (snd e)) else None).
  { intros e He NC PQ. rewrite <- MF in NC, PQ. rewrite <- MF. rewrite (aget_leaf fp (mkcfg vs h r) kvs q (S (length q)) HI HN' cut (mknode kvs 0) e); auto.
    - exists q. reflexivity.
    - cbn. lia. }
  assert (SA : forall e, In e kvs -> (leaf_match fp (mkcfg vs h r) e q (length (dprefix keys (fst e))) = true <-> suffix_agrees fp h r (length (dprefix keys (fst e))) (fst e) q)).
  { intros e He. apply smatch_agrees; auto; [apply V|]. pose proof (v_byte _ _ _ _ _ V) as F. rewrite Forall_forall in F. apply F. rewrite <- MF. now apply in_map. }
  split.
  - intros E. apply Ok_eq in E. destruct (aget_hit fp (mkcfg vs h r) kvs q (S (length q)) HI HN' cut (mknode kvs 0) v NI TW) as (e & He & NC & PQ); auto.
    { exists q. reflexivity. }
    rewrite MF in NC, PQ. rewrite (LF e He NC PQ) in E. destruct (leaf_match _ _ _ _ _) eqn:M; [|discriminate]. injection E as <-.
    destruct (in_combine_nth keys vals e He) as (i & H1 & H2). exists i, (fst e), (snd e). do 5 (split; auto). now apply SA.
  - intros (i & k & w & H1 & H2 & -> & NC & PQ & A). pose proof (combine_nth_In keys vals i k w H1 H2) as He. fold kvs in He.
    f_equal. rewrite (LF (k, w) He NC PQ). apply (SA (k, w)) in A; auto. now rewrite A.
Qed.

Theorem get_wide_hash fp vs h keys vals hint s q i k w : valid_input vs h 0 keys vals -> built fp vs h 0 keys vals hint s ->
  wf_bytes q = true -> ~ proper_prefix_of_some keys q -> 57 < h -> nth_error keys i = Some k -> nth_error vals i = Some w ->
  ~ continued keys k -> is_prefix (dprefix keys k) q -> surf_get fp s q = Ok (Some (firstn vs w)).
Proof.
  intros V B Hq HN H Hk Hw NC P. apply (get_exact fp vs h 0 keys vals hint s q V B Hq HN). exists i, k, w. do 5 (split; auto).
  destruct h; [lia|]. cbn [suffix_agrees]. intros X. lia.
Qed.
