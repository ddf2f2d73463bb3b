(** * The size of a built filter and the choice of the dense levels *)
From Verif Require Import Base BitsModel VecModel SurfModel BitsFacts VecProofs VecProofs2 SurfTrie SurfBuild SurfDense SurfEnc SurfSpec SurfBuildTop
  SurfTop SurfSizeSpec.
From Coq Require Import ZifyBool ZifyNat ZifyN.
Ltac Zify.zify_post_hook ::= Z.div_mod_to_equations.

(* ------------------------------------------------------------------ *)
(** ** Counting nodes, items and leaves *)

Definition ksum (F : list tnode) : nat := nsum (map (fun n => length (tn_kvs n)) F).

Lemma leaf_len n it : In it (items n) -> hasc it = false -> length (i_grp it) = 1.
Proof. intros H E. destruct (item_leaf n it H E) as (e & ->). reflexivity. Qed.

Lemma nsum_split (its : list item) : (forall it, In it its -> hasc it = false -> length (i_grp it) = 1) ->
  nsum (map (fun it => length (i_grp it)) its) = length (filter leafb its) + nsum (map (fun it => length (i_grp it)) (filter hasc its)).
Proof.
  induction its as [|it its IH]; intros H; [reflexivity|]. cbn [map filter]. unfold leafb in *. unfold nsum in *. cbn [fold_right].
  rewrite IH by (intros; apply H; [now right|auto]). destruct (hasc it) eqn:E; cbn [negb].
  - cbn [map fold_right]. lia.
  - cbn [length]. rewrite (H it (or_introl eq_refl) E). lia.
Qed.

Lemma ksum_node n : ksum [n] = length (leaves [n]) + ksum (children n).
Proof.
  unfold ksum, leaves. cbn [map flat_map]. rewrite app_nil_r.
  pose proof (items_kvs (tn_d n) (tn_kvs n)) as E. fold (items n) in E.
  unfold nsum at 1. cbn [fold_right]. rewrite <- E at 1. rewrite concat_length_nsum, map_map.
  rewrite nsum_split by (intros; eapply leaf_len; eauto). rewrite Nat.add_0_r. f_equal.
  unfold children. rewrite map_map. reflexivity.
Qed.

Lemma ksum_app F G : ksum (F ++ G) = ksum F + ksum G.
Proof. unfold ksum. now rewrite map_app, nsum_app. Qed.
Lemma leaves_app F G : leaves (F ++ G) = leaves F ++ leaves G.
Proof. unfold leaves. now rewrite flat_map_app, filter_app. Qed.

Lemma ksum_level F : ksum F = length (leaves F) + ksum (flat_map children F).
Proof.
  induction F as [|n F IH]; [reflexivity|]. change (n :: F) with ([n] ++ F). rewrite ksum_app, leaves_app, app_length, flat_map_app, ksum_app, IH, ksum_node.
  cbn [flat_map]. rewrite app_nil_r. lia.
Qed.

Lemma linked_leaves NSS : linked NSS -> forall L R, NSS = L :: R -> length (leaves (concat NSS)) = ksum L.
Proof.
  induction 1 as [L0 H|L0 L' R0 H Hl IH]; intros L R E; inversion E; subst.
  - cbn [concat]. rewrite app_nil_r, ksum_level, H. cbn. lia.
  - cbn [concat]. rewrite leaves_app, app_length. specialize (IH _ _ eq_refl). cbn [concat] in IH. rewrite IH. rewrite (ksum_level L). reflexivity.
Qed.

Lemma filter_two {A} (p : A -> bool) l : length l = length (filter p l) + length (filter (fun x => negb (p x)) l).
Proof. induction l as [|a l IH]; [reflexivity|]. cbn [filter length]. destruct (p a); cbn [negb length]; lia. Qed.

Lemma items_count F : length (flat_map items F) = length (leaves F) + length (flat_map children F).
Proof.
  rewrite flat_map_children, map_length. unfold leaves. rewrite (filter_two hasc (flat_map items F)). unfold leafb. lia.
Qed.

Lemma flat_map_ge {A B} (f : A -> list B) k l : (forall x, In x l -> k <= length (f x)) -> k * length l <= length (flat_map f l).
Proof.
  induction l as [|a l IH]; intros H; cbn [flat_map length]; [lia|]. rewrite app_length.
  pose proof (H a (or_introl eq_refl)). specialize (IH (fun x Hx => H x (or_intror Hx))). lia.
Qed.

Section Counts.
Variable kvs : list kv.
Hypothesis W : nwf (mknode kvs 0).
Let NSS := trie kvs.

Lemma trie_cons : exists R, NSS = [mknode kvs 0] :: R.
Proof.
  pose proof (trie_head kvs (w_ne _ W)) as H. fold NSS in H. destruct NSS as [|L R]; [discriminate|]. inversion H; subst. now exists R.
Qed.
Lemma trie_linked : linked NSS.
Proof. apply blevels_linked; [|discriminate]. constructor; [split; auto|constructor]. Qed.

Lemma leaves_total : length (leaves (concat NSS)) = length kvs.
Proof.
  destruct trie_cons as (R & E). rewrite (linked_leaves _ trie_linked _ _ E). unfold ksum. cbn. lia.
Qed.
Lemma items_total : length (flat_map items (concat NSS)) + 1 = length kvs + length (concat NSS).
Proof.
  rewrite items_count, leaves_total. destruct trie_cons as (R & E). rewrite <- (linked_tail _ trie_linked _ _ E). rewrite E. cbn [concat length app]. lia.
Qed.
Lemma nodes_total : 2 <= length kvs -> length (concat NSS) + 1 <= length kvs.
Proof.
  intros H. pose proof items_total as T.
  assert (G : 2 * length (concat NSS) <= length (flat_map items (concat NSS))).
  { apply flat_map_ge. intros n Hn. apply in_concat in Hn as (ns & H1 & H2).
    pose proof (trie_two kvs W H ns H1) as X. rewrite Forall_forall in X. apply items_two; auto.
    eapply blevels_in; [|exact H1|exact H2]. constructor; [split; auto|constructor]. }
  lia.
Qed.
Lemma nodes_le : length (concat NSS) <= length kvs.
Proof.
  destruct (Nat.lt_ge_cases (length kvs) 2) as [L|L]; [|pose proof (nodes_total L); lia].
  pose proof (w_ne _ W) as N. cbn [mknode tn_kvs] in N. subst NSS. destruct kvs as [|e [|]]; cbn [length] in *; try congruence; try lia.
  cbn. lia.
Qed.
Lemma psum_total : psum (concat NSS) <= length (concat (map fst kvs)).
Proof.
  etransitivity; [apply psum_levels; constructor; [split; auto|constructor]|]. rewrite concat_length_nsum, map_map.
  unfold nsum, wsum. cbn [map fold_right mknode tn_kvs tn_pd]. rewrite Nat.add_0_r. apply nsum_le. intros. lia.
Qed.
End Counts.

(* ------------------------------------------------------------------ *)
(** ** The estimate used for the choice *)

(** What builder.go:266-315 counts when levels [0..l-1] are dense, without overflow. *)
Definition est (NSS : list (list tnode)) (slen n l : nat) : nat :=
  512 * length (concat (firstn l NSS)) + length (concat (firstn (l - 1) NSS)) +
  10 * length (flat_map items (concat (skipn l NSS))) +
  (n * slen + 8 * psum (concat NSS) + length (concat NSS)).

Section Est.
Variable fp : bytes -> N.
Variable c : config.
Variables (lvs : list level) (NSS : list (list tnode)).
Hypothesis R : lreps fp c lvs NSS.

Lemma lv_count_nth j : match nth_error lvs j with Some lv => lv_nodeCount lv | None => 0 end =
  match nth_error NSS j with Some ns => length ns | None => 0 end.
Proof.
  revert j. induction R as [|lv ns lvs' NSS' R0 R' IH]; intros [|j]; cbn [nth_error]; auto. apply R0.
Qed.

Lemma len_firstn_S {A} (L : list (list A)) j : length (concat (firstn (S j) L)) = length (concat (firstn j L)) + match nth_error L j with Some x => length x | None => 0 end.
Proof.
  revert j. induction L as [|x L IH]; intros [|j]; try reflexivity.
  - cbn. rewrite app_nil_r. reflexivity.
  - rewrite !firstn_cons. cbn [concat nth_error]. rewrite !app_length, IH. lia.
Qed.

Lemma len_firstn_le {A} (L : list (list A)) j : length (concat (firstn j L)) <= length (concat L).
Proof. rewrite <- (firstn_skipn j L) at 2. rewrite concat_app, app_length. lia. Qed.
Lemma nth_len_le {A} (L : list (list A)) j x : nth_error L j = Some x -> length x <= length (concat L).
Proof. intros H. pose proof (len_firstn_S L j) as E. rewrite H in E. pose proof (len_firstn_le L (S j)). lia. Qed.

Hypothesis SMALL : (N.of_nat (length (concat NSS)) < 8388608)%N.
Hypothesis SMALLI : (N.of_nat (length (flat_map items (concat NSS))) < 4294967296)%N.

Lemma w64_small x : (x < 18446744073709551616)%N -> w64 x = x.
Proof. intros H. unfold w64. apply N.mod_small. exact H. Qed.

Lemma dense_est l : denseSizeNoSuffix lvs l = N.of_nat (512 * length (concat (firstn l NSS)) + length (concat (firstn (l - 1) NSS))).
Proof.
  unfold denseSizeNoSuffix. induction l as [|l IH]; [reflexivity|].
  rewrite seq_S, fold_left_app, IH. cbn [fold_left Nat.add]. rewrite len_firstn_S. replace (S l - 1) with l by lia.
  pose proof (lv_count_nth l) as C. set (x := match nth_error NSS l with Some _ => _ | None => _ end) in *.
  assert (Hx : x <= length (concat NSS)) by (unfold x; destruct (nth_error NSS l) eqn:E; [eapply nth_len_le; eauto|lia]).
  replace (match nth_error lvs l with Some lv => N.of_nat (lv_nodeCount lv) | None => 0%N end) with (N.of_nat x) by (rewrite <- C; destruct (nth_error lvs l); reflexivity).
  rewrite (N.mod_small (2 * 256 * N.of_nat x)%N two32) by (unfold two32; lia).
  pose proof (len_firstn_le NSS l) as B1. pose proof (len_firstn_le NSS (l - 1)) as B2.
  destruct l as [|l].
  - cbn [Nat.ltb Nat.leb]. rewrite w64_small; cbn [firstn concat length Nat.sub]; lia.
  - replace (Nat.ltb 0 (S l)) with true by reflexivity. replace (S l - 1) with l in * by lia.
    pose proof (lv_count_nth l) as C'. pose proof (len_firstn_S NSS l) as F. set (y := match nth_error NSS l with Some _ => _ | None => _ end) in *.
    replace (match nth_error lvs l with Some lv => N.of_nat (lv_nodeCount lv) | None => 0%N end) with (N.of_nat y) by (rewrite <- C'; destruct (nth_error lvs l); reflexivity).
    rewrite w64_small; lia.
Qed.

Lemma items_skip_le l : length (flat_map items (concat (skipn l NSS))) <= length (flat_map items (concat NSS)).
Proof. rewrite <- (firstn_skipn l NSS) at 2. rewrite concat_app, flat_map_app, app_length. lia. Qed.

Lemma sparse_fold ls : forall NS a, lreps fp c ls NS -> (a + 10 * N.of_nat (length (flat_map items (concat NS))) < 18446744073709551616)%N ->
  fold_left (fun acc lv => let n := N.of_nat (numItems lv) in w64 (acc + n * 8 + 2 * n)%N) ls a = (a + 10 * N.of_nat (length (flat_map items (concat NS))))%N.
Proof using.
  clear. induction ls as [|lv ls IH]; intros NS a R H; inversion R as [|? ns ? NS' R0 R']; subst; cbn [fold_left concat flat_map length].
  - lia.
  - pose proof (lrep_numItems _ _ _ _ _ R0) as E. rewrite app_nil_r in E. cbn [concat] in H. rewrite flat_map_app, app_length in *.
    cbv zeta. rewrite E. rewrite w64_small by lia. rewrite (IH NS') by (auto; lia). lia.
Qed.

Lemma sparse_est l : sparseSizeNoSuffix lvs l = N.of_nat (10 * length (flat_map items (concat (skipn l NSS)))).
Proof.
  unfold sparseSizeNoSuffix. pose proof (items_skip_le l) as B. rewrite (sparse_fold _ (skipn l NSS)).
  - lia. - apply Forall2_skipn. exact R. - lia.
Qed.

Lemma filter_len_sum ns : nsum (map (@length nat) (filter nonempty (map nprefix ns))) = nsum (map (fun n => length (nprefix n)) ns).
Proof using.
  clear. induction ns as [|n ns IH]; [reflexivity|]. cbn [map filter]. unfold nsum in *. cbn [fold_right]. rewrite <- IH. destruct (nprefix n); reflexivity.
Qed.

Lemma lv_prefix_sum ls NS : lreps fp c ls NS -> nsum (map (fun lv => nsum (map (@length nat) (lv_prefixes lv)) * 8) ls) = 8 * psum (concat NS).
Proof using.
  clear. induction 1 as [|lv ns lvs' NSS' R0 R' IH]; [reflexivity|]. cbn [map concat]. unfold nsum at 1. cbn [fold_right].
  fold (nsum (map (fun lv => nsum (map (@length nat) (lv_prefixes lv)) * 8) lvs')). rewrite IH.
  unfold psum. rewrite map_app, nsum_app. rewrite (r_pre _ _ _ _ _ R0), filter_len_sum. lia.
Qed.

Lemma lv_count_sum ls NS : lreps fp c ls NS -> nsum (map lv_nodeCount ls) = length (concat NS).
Proof using.
  clear. induction 1 as [|lv ns lvs' NSS' R0 R' IH]; [reflexivity|]. cbn [map concat]. unfold nsum in *. cbn [fold_right].
  rewrite app_length, IH, (r_count _ _ _ _ _ R0). lia.
Qed.

Lemma cutoff_spec l extra sz :
  let k := cutoff l lvs extra sz in
  let size j := w64 (denseSizeNoSuffix lvs j + sparseSizeNoSuffix lvs j + extra)%N in
  k <= l /\ (k = 0 \/ (size k <= sz)%N) /\ (forall j, k < j <= l -> (sz < size j)%N).
Proof using.
  clear. cbv zeta. induction l as [|l IH]; cbn [cutoff].
  - split; [lia|]. split; [auto|]. intros; lia.
  - destruct (N.leb_spec (w64 (denseSizeNoSuffix lvs (S l) + sparseSizeNoSuffix lvs (S l) + extra)) sz) as [L|L].
    + split; [lia|]. split; [auto|]. intros; lia.
    + destruct IH as (A & B & C). split; [lia|]. split; [auto|]. intros j Hj. destruct (Nat.eq_dec j (S l)) as [->|]; [exact L|]. apply C. lia.
Qed.

Hypothesis SMALLP : (N.of_nat (psum (concat NSS)) < 4294967296)%N.

(** The chosen level: it fits the hint unless it is 0, and no later level fits. *)
Lemma determine_spec n slen hint : slen <= 64 -> (N.of_nat n < 8388608)%N -> (0 <= hint)%Z -> (Z.of_nat n * hint < 18446744073709551616)%Z ->
  let k := determineCutoffLevel lvs n slen hint in
  k <= length NSS - 1 /\ (k = 0 \/ (Z.of_nat (est NSS slen n k) <= Z.of_nat n * hint)%Z) /\
  (forall j, k < j <= length NSS - 1 -> (Z.of_nat n * hint < Z.of_nat (est NSS slen n j))%Z).
Proof.
  intros Hs Hn H0 H1 k. subst k. unfold determineCutoffLevel.
  rewrite (lv_prefix_sum _ _ R), (lv_count_sum _ _ R).
  assert (L : length lvs = length NSS) by (eapply Forall2_length; exact R). rewrite L.
  set (ex := w64 _).
  assert (EX : ex = N.of_nat (n * slen + 8 * psum (concat NSS) + length (concat NSS))).
  { unfold ex. assert (N.of_nat n * N.of_nat slen <= 8388608 * 64)%N by (apply N.mul_le_mono; lia). rewrite (w64_small (N.of_nat n * N.of_nat slen)) by lia. rewrite w64_small; lia. }
  set (sz := Z.to_N _).
  assert (SZ : Z.of_N sz = (Z.of_nat n * hint)%Z).
  { unfold sz, two64. change (Z.of_N 18446744073709551616) with 18446744073709551616%Z. rewrite Z.mod_small by nia. rewrite Z2N.id by nia. reflexivity. }
  assert (EQ : forall j, w64 (denseSizeNoSuffix lvs j + sparseSizeNoSuffix lvs j + ex) = N.of_nat (est NSS slen n j)).
  { intros j. rewrite dense_est, sparse_est, EX. unfold est. pose proof (len_firstn_le NSS j). pose proof (len_firstn_le NSS (j - 1)). pose proof (items_skip_le j).
    assert (N.of_nat (n * slen) <= 8388608 * 64)%N by (rewrite Nat2N.inj_mul; apply N.mul_le_mono; lia).
    rewrite w64_small; lia. }
  destruct (cutoff_spec (length NSS - 1) ex sz) as (A & B & C). cbv zeta in *. split; [exact A|]. split.
  - destruct B as [B|B]; [left; exact B|right]. rewrite EQ in B. lia.
  - intros j Hj. specialize (C j Hj). rewrite EQ in C. lia.
Qed.
End Est.

(* ------------------------------------------------------------------ *)
(** ** The size of the filter *)

Lemma bindI {A B} (x : res A) (k : A -> res B) y : (a <- x ;; k a) = Ok y -> exists a, x = Ok a /\ k a = Ok y.
Proof. destruct x as [a| |]; cbn; intros H; try discriminate. eauto. Qed.
Lemma OkI {A} (x y : A) : Ok x = Ok y -> x = y.
Proof. congruence. Qed.

Lemma bv_init_bits ls nums v : bitVector_init ls nums = Ok v -> bv_numBits v = nsum nums.
Proof. unfold bitVector_init. intros H. apply bindI in H as (((d & a) & b) & _ & H). apply OkI in H. subst v. reflexivity. Qed.
Lemma rv_init_bits bs ls nums v : rankVector_init bs ls nums = Ok v -> bv_numBits (rv_bv v) = nsum nums.
Proof.
  unfold rankVector_init. intros H. apply bindI in H as (bv & E & H). apply bindI in H as (lut & _ & H). apply OkI in H. subst v.
  cbn [rv_bv]. eapply bv_init_bits; eauto.
Qed.
Lemma pv_init_bits ls nums P v : prefixVec_init ls nums P = Ok v -> bv_numBits (rv_bv (pv_has v)) = nsum nums.
Proof. unfold prefixVec_init. intros H. apply bindI in H as (r & E & H). apply OkI in H. subst v. cbn [pv_has]. eapply rv_init_bits; exact E. Qed.

Lemma slice_0 {A} (l : list A) n x : slice l 0 n = Ok x -> x = firstn n l.
Proof. unfold slice. destruct (_ && _); intros H; [|discriminate]. apply OkI in H. subst x. cbn [skipn]. now rewrite Nat.sub_0_r. Qed.
Lemma slice_from_inv {A} (l : list A) n x : slice_from l n = Ok x -> x = skipn n l.
Proof. unfold slice_from. destruct (Nat.leb n (length l)); intros H; [|discriminate]. apply OkI in H. now subst. Qed.

Lemma ld_init_bits b ld : ld_init b = Ok ld ->
  bv_numBits (rv_bv (ld_isPrefix ld)) = nsum (map lv_nodeCount (b_levels b)) /\
  bv_numBits (rv_bv (pv_has (ld_prefix ld))) = nsum (map lv_nodeCount (firstn (b_sparseStart b) (b_levels b))).
Proof.
  unfold ld_init. intros H. repeat (apply bindI in H as (? & ? & H)). apply OkI in H. subst ld. cbn [ld_isPrefix ld_prefix].
  match goal with E : slice (b_levels b) 0 _ = Ok _ |- _ => apply slice_0 in E; subst end.
  split; [eapply rv_init_bits; eassumption|eapply pv_init_bits; eassumption].
Qed.
Lemma ls_init_bits b ls : ls_init b = Ok ls ->
  bv_numBits (rv_bv (pv_has (ls_prefix ls))) = nsum (map lv_nodeCount (skipn (b_sparseStart b) (b_levels b))).
Proof.
  unfold ls_init. intros H. repeat (apply bindI in H as (? & ? & H)). apply OkI in H. subst ls. cbn [ls_prefix].
  match goal with E : slice_from (b_levels b) _ = Ok _ |- _ => apply slice_from_inv in E; subst end.
  eapply pv_init_bits; eassumption.
Qed.

Lemma sx_bits fp c xv its : cfg_ok c -> sx_rep fp c xv its -> suffix_bits xv = length its * c_suffixLen c.
Proof.
  intros (CT & _) ((T1 & T2) & X). unfold suffix_bits. destruct (suffixType_eqb (c_type c) NoneSuffix) eqn:E.
  - assert (EN : c_type c = NoneSuffix) by (destruct (c_type c); try discriminate; reflexivity).
    rewrite (T2 EN). cbn. rewrite EN in CT. unfold c_suffixLen.
    destruct (Nat.eqb_spec (c_hashLen c) 0), (Nat.eqb_spec (c_realLen c) 0); cbn in CT; try discriminate. rewrite e, e0. lia.
  - destruct X as (_ & _ & (B & _)); [intros Q; rewrite Q in E; discriminate|]. rewrite B, sufbits_length, map_length. reflexivity.
Qed.

Lemma pv_data_len v ns : pv_rep v (map nprefix ns) -> length (pv_data v) = psum ns.
Proof. intros (_ & _ & -> & _). rewrite concat_filter_nonempty. apply psum_length. Qed.

Lemma flat_256 (f : list item -> list bool) ns : (forall l, length (f l) = 256) -> length (flat_map (fun n => f (items n)) ns) = length ns * 256.
Proof. intros H. apply flat_map_const. intros. apply H. Qed.

Lemma psum_app F G : psum (F ++ G) = psum F + psum G.
Proof. unfold psum. now rewrite map_app, nsum_app. Qed.

Lemma enc_exact fp c NSS lvs h s b : cfg_ok c -> surf_rep fp c NSS h s -> lreps fp c lvs NSS -> b_levels b = lvs -> b_sparseStart b = h ->
  ld_init b = Ok (s_ld s) -> ls_init b = Ok (s_ls s) ->
  encoded_bits s = 512 * length (concat (firstn h NSS)) + 10 * length (flat_map items (concat (skipn h NSS))) + 8 +
    length (leaves (concat NSS)) * c_suffixLen c + 8 * psum (concat NSS) + 2 * length (concat NSS).
Proof.
  intros CT (_ & _ & _ & WF & LD & LS) R EB ES E1 E2. apply ld_init_bits in E1 as (B1 & B2). apply ls_init_bits in E2.
  rewrite EB, ES in *. rewrite (lv_count_sum fp c _ _ R) in B1.
  rewrite (lv_count_sum fp c _ (firstn h NSS)) in B2 by (apply Forall2_firstn; exact R).
  rewrite (lv_count_sum fp c _ (skipn h NSS)) in E2 by (apply Forall2_skipn; exact R).
  unfold encoded_bits, dense_bits, sparse_bits, prefix_bits. rewrite B1, B2, E2.
  rewrite (sx_bits fp c _ _ CT (ldr_suf _ _ _ _ _ LD)), (sx_bits fp c _ _ CT (lsr_suf _ _ _ _ _ _ _ LS)).
  rewrite (pv_data_len _ _ (ldr_pre _ _ _ _ _ LD)), (pv_data_len _ _ (lsr_pre _ _ _ _ _ _ _ LS)).
  rewrite (proj1 (proj1 (ldr_label _ _ _ _ _ LD))), (proj1 (proj1 (ldr_hasc _ _ _ _ _ LD))).
  rewrite (flat_256 dlab _ dlab_length), (flat_256 dhas _ dhas_length).
  rewrite (lsr_label _ _ _ _ _ _ _ LS), (proj1 (proj1 (lsr_hasc _ _ _ _ _ _ _ LS))), (proj1 (proj1 (lsr_louds _ _ _ _ _ _ _ LS))).
  assert (WS : Forall nwf (concat (skipn h NSS))).
  { rewrite <- (firstn_skipn h NSS) in WF. rewrite concat_app, Forall_app in WF. apply WF. }
  rewrite loudsb_length by exact WS. rewrite app_length, !map_length. cbn [length].
  assert (EC : concat NSS = concat (firstn h NSS) ++ concat (skipn h NSS)) by (rewrite <- concat_app, firstn_skipn; reflexivity).
  rewrite EC, leaves_app, psum_app, !app_length. lia.
Qed.

(** What Build returns, in numbers. *)
Lemma built_size fp vs h r keys vals hint s : valid_input vs h r keys vals -> built fp vs h r keys vals hint s ->
  (N.of_nat (length keys) < 8388608)%N -> (0 <= hint)%Z -> (Z.of_nat (length keys) * hint < 18446744073709551616)%Z ->
  let n := length keys in let NSS := trie (combine keys vals) in let cut := ld_height (s_ld s) in
  encoded_bits s + length (concat (firstn (cut - 1) NSS)) = est NSS (h + r) n cut + length (concat NSS) + 8 /\
  cut <= length NSS - 1 /\
  (cut = 0 \/ (Z.of_nat (est NSS (h + r) n cut) <= Z.of_nat n * hint)%Z) /\
  (forall j, cut < j <= length NSS - 1 -> (Z.of_nat n * hint < Z.of_nat (est NSS (h + r) n j))%Z).
Proof.
  intros V (fuel & b0 & HF & E0) SM H0 H1 n NSS cut. subst n. destruct (built_rep fp vs h r keys vals hint s V) as (_ & _ & W & CT & _ & MF & _); [now exists fuel, b0|].
  destruct (surf_build_full fp vs h r keys vals hint fuel V HF) as (s' & b' & lvs & E & RP & R & EL & ES & E1 & E2).
  rewrite E0 in E. apply OkI in E. inversion E; subst s' b'. clear E. fold NSS in RP, R.
  assert (LK : length (combine keys vals) = length keys) by (rewrite <- MF at 2; symmetry; apply map_length).
  assert (HC : cut = determineCutoffLevel lvs (length keys) (h + r) hint).
  { unfold cut. destruct RP as (_ & _ & _ & _ & LD & _). apply LD. }
  rewrite <- HC in RP, ES.
  pose proof (enc_exact fp _ NSS lvs cut s b0 CT RP R EL ES E1 E2) as EQ.
  pose proof (nodes_le _ W) as NL. pose proof (items_total _ W) as IT. pose proof (leaves_total _ W) as LT. pose proof (psum_total _ W) as PT.
  fold NSS in NL, IT, LT, PT. rewrite LK in NL, IT, LT. rewrite MF in PT. pose proof (v_fits _ _ _ _ _ V) as VF.
  pose proof (v_suffix _ _ _ _ _ V) as VS.
  assert (SL : c_suffixLen (mkcfg vs h r) = h + r) by reflexivity.
  split.
  - rewrite EQ, LT, SL. unfold est. lia.
  - pose proof (determine_spec fp _ lvs NSS R) as D. specialize (D ltac:(lia) ltac:(lia) ltac:(lia) (length keys) (h + r) hint VS SM H0 H1).
    cbv zeta in D. rewrite <- HC in D. exact D.
Qed.

Theorem size_hint fp vs h r keys vals hint s : valid_input vs h r keys vals -> built fp vs h r keys vals hint s ->
  (N.of_nat (length keys) < 8388608)%N -> (0 <= hint)%Z -> (Z.of_nat (length keys) * hint < 18446744073709551616)%Z ->
  0 < ld_height (s_ld s) -> (Z.of_nat (encoded_bits s) <= Z.of_nat (length keys) * (hint + 1) + 7)%Z.
Proof.
  intros V B SM H0 H1 HP. destruct (built_size fp vs h r keys vals hint s V B SM H0 H1) as (EQ & CL & [C0|C1] & _); [lia|].
  destruct (built_rep fp vs h r keys vals hint s V B) as (_ & _ & W & _ & _ & MF & _).
  assert (LK : length (combine keys vals) = length keys) by (rewrite <- MF at 2; symmetry; apply map_length).
  assert (L2 : 2 <= length keys).
  { destruct (Nat.lt_ge_cases (length keys) 2) as [L|L]; auto. exfalso. rewrite <- LK in L. pose proof (w_ne _ W) as NE. cbn [mknode tn_kvs] in NE.
    destruct (combine keys vals) as [|e [|]]; cbn [length] in L; try congruence; try lia. cbn in CL. lia. }
  pose proof (nodes_total _ W ltac:(lia)) as NT. rewrite LK in NT. lia.
Qed.

Theorem size_maximal fp vs h r keys vals hint s hint' s' : valid_input vs h r keys vals ->
  built fp vs h r keys vals hint s -> built fp vs h r keys vals hint' s' ->
  (N.of_nat (length keys) < 8388608)%N -> (0 <= hint)%Z -> (Z.of_nat (length keys) * hint < 18446744073709551616)%Z ->
  (0 <= hint')%Z -> (Z.of_nat (length keys) * hint' < 18446744073709551616)%Z ->
  ld_height (s_ld s) < ld_height (s_ld s') -> (Z.of_nat (length keys) * hint < Z.of_nat (encoded_bits s'))%Z.
Proof.
  intros V B B' SM H0 H1 H0' H1' L. destruct (built_size fp vs h r keys vals hint s V B SM H0 H1) as (_ & _ & _ & M).
  destruct (built_size fp vs h r keys vals hint' s' V B' SM H0' H1') as (EQ & CL & _ & _).
  specialize (M (ld_height (s_ld s')) ltac:(lia)). pose proof (len_firstn_le (trie (combine keys vals)) (ld_height (s_ld s') - 1)). lia.
Qed.

Theorem size_mono fp vs h r keys vals hint s hint' s' : valid_input vs h r keys vals ->
  built fp vs h r keys vals hint s -> built fp vs h r keys vals hint' s' ->
  (N.of_nat (length keys) < 8388608)%N -> (0 <= hint <= hint')%Z -> (Z.of_nat (length keys) * hint' < 18446744073709551616)%Z ->
  ld_height (s_ld s) <= ld_height (s_ld s').
Proof.
  intros V B B' SM H0 H1. destruct (built_size fp vs h r keys vals hint s V B SM ltac:(lia) ltac:(nia)) as (_ & CL & C & _).
  destruct (built_size fp vs h r keys vals hint' s' V B' SM ltac:(lia) H1) as (_ & _ & _ & M).
  destruct C as [C|C]; [lia|]. destruct (Nat.le_gt_cases (ld_height (s_ld s)) (ld_height (s_ld s'))) as [L|L]; auto. exfalso.
  specialize (M (ld_height (s_ld s)) ltac:(lia)). nia.
Qed.

(** Whatever the hint: the sparse part has at most ten bits per label, there are fewer
    than two labels per key, fewer nodes than keys. *)
Theorem size_linear fp vs h r keys vals hint s : valid_input vs h r keys vals -> built fp vs h r keys vals hint s ->
  ld_height (s_ld s) = 0 ->
  encoded_bits s <= length keys * (22 + h + r) + 8 * length (concat keys).
Proof.
  intros V B D0. pose proof B as (fuel & b0 & HF & E0). destruct (built_rep fp vs h r keys vals hint s V B) as (_ & _ & W & CT & _ & MF & _).
  destruct (surf_build_full fp vs h r keys vals hint fuel V HF) as (s' & b' & lvs & E & RP & R & EL & ES & E1 & E2).
  rewrite E0 in E. apply OkI in E. inversion E; subst s' b'. clear E. set (NSS := trie (combine keys vals)) in *.
  assert (LK : length (combine keys vals) = length keys) by (rewrite <- MF at 2; symmetry; apply map_length).
  set (cut := determineCutoffLevel lvs _ _ _) in *.
  assert (HC : cut = 0). { destruct RP as (_ & _ & _ & _ & LD & _). rewrite <- (ldr_h _ _ _ _ _ LD). exact D0. }
  pose proof (enc_exact fp _ NSS lvs cut s b0 CT RP R EL ES E1 E2) as EQ. rewrite HC in EQ. cbn [firstn skipn concat length] in EQ.
  pose proof (items_total _ W) as IT. pose proof (leaves_total _ W) as LT. pose proof (psum_total _ W) as PT. pose proof (nodes_le _ W) as NL.
  fold NSS in NL, IT, LT, PT. rewrite LK in NL, IT, LT. rewrite MF in PT. rewrite LT in EQ.
  assert (SL : c_suffixLen (mkcfg vs h r) = h + r) by reflexivity. rewrite SL in EQ. 
  destruct (Nat.lt_ge_cases (length keys) 2) as [L|L].
  - assert (K1 : length keys = 1) by (pose proof (v_ne _ _ _ _ _ V); destruct keys; cbn in *; [congruence|lia]). rewrite K1 in *. lia.
  - pose proof (nodes_total _ W ltac:(lia)) as NT. rewrite LK in NT. fold NSS in NT. lia.
Qed.
