(** * Suffixes: written by the builder, read back by the filter. *)
From Coq Require Import Sorted.
From Verif Require Import Base BitsModel BitsFacts VecModel VecProofs VecProofs2 SurfModel SurfTrie SurfSuffix SurfBuild SurfDense SurfEnc SurfBuildTop SurfGet SurfTop.

(** Record the suffixes of some keys, in order, on one level. *)
Fixpoint insert_suffixes (fp : bytes -> N) (c : config) (ps : list (bytes * nat)) (lv : level) : res level :=
  match ps with
  | [] => Ok lv
  | (k, d) :: r => lv <- insertSuffix fp c k d lv ;; insert_suffixes fp c r lv
  end.

Section Suf.
Variable fp : bytes -> N.
Variable c : config.
Hypothesis CO : cfg_ok c.
Notation slen := (c_suffixLen c).
Definition psfx (p : bytes * nat) : N := sfx fp (c_type c) (c_hashLen c) (c_realLen c) (fst p) (snd p + 1).

Lemma insert_suffixes_spec ps : forall lv vs, sxrep c (lv_suffixes lv) vs -> lv_suffixCount lv = length vs ->
  Forall (fun p => wf_bytes (fst p) = true) ps ->
  exists lv', insert_suffixes fp c ps lv = Ok lv' /\ sxrep c (lv_suffixes lv') (vs ++ map psfx ps) /\ lv_suffixCount lv' = length vs + length ps.
Proof.
  induction ps as [|[k d] ps IH]; intros lv vs R N W.
  - exists lv. cbn. rewrite app_nil_r, Nat.add_0_r. auto.
  - inversion W; subst. cbn [insert_suffixes]. destruct (insertSuffix_spec fp c (proj2 CO) k d lv vs R N H1) as (ss' & E & R').
    rewrite E. cbn [bind]. destruct (IH (set_suffixes lv ss' (lv_suffixCount lv + 1)) (vs ++ [psfx (k, d)])) as (lv' & E' & R2 & N2); auto.
    + cbn [set_suffixes lv_suffixCount]. rewrite app_length. cbn [length]. lia.
    + exists lv'. split; auto. rewrite <- app_assoc in R2. split; auto. rewrite N2, app_length. cbn [length]. lia.
Qed.

Theorem suffixes_roundtrip_in (groups : list (list (bytes * nat))) : c_type c <> NoneSuffix ->
  Forall (fun p => wf_bytes (fst p) = true) (concat groups) ->
  exists lvs v, Forall2 (fun g lv => insert_suffixes fp c g emptyLevel = Ok lv) groups lvs /\
    suffixVector_init (c_type c) (c_hashLen c) (c_realLen c) (map lv_suffixes lvs) (map (fun lv => lv_suffixCount lv * slen) lvs) = Ok v /\
    forall i k d, nth_error (concat groups) i = Some (k, d) ->
      suffix_read v i = constructSuffix fp k (d + 1) (c_type c) (c_realLen c) (c_hashLen c) /\
      checkEquality fp v i k (d + 1) = Ok true /\ i * xv_suffixLen v < bv_numBits (xv_bv v).
Proof.
  intros NT W. destruct (slen_pos c CO NT) as [SP SL].
  assert (G : exists lvs, Forall2 (fun g lv => insert_suffixes fp c g emptyLevel = Ok lv) groups lvs /\
     Forall2 (fun g lv => level_ok (lv_suffixes lv) (lv_suffixCount lv * slen) /\ bits_of (lv_suffixes lv) (lv_suffixCount lv * slen) = sufbits c (map psfx g)) groups lvs).
  { induction groups as [|g gs IH]; [exists []; split; constructor|]. cbn [concat] in W. apply Forall_app in W as [W1 W2]. destruct (IH W2) as (lvs & F1 & F2).
    destruct (insert_suffixes_spec g emptyLevel []) as (lv & E & R & N); auto.
    { right. split; [|reflexivity]. split; [constructor|]. intros i. unfold gbit. destruct (i / 64); destruct i; reflexivity. }
    exists (lv :: lvs). split; constructor; auto. cbn [app length Nat.add] in *. destruct R as [Z|[R1 R2]]; [lia|].
    assert (L : lv_suffixCount lv * slen = length (sufbits c (map psfx g))) by (rewrite sufbits_length, map_length; congruence).
    split; [|rewrite L; now apply rep_bits_of]. destruct R1 as [Wd Gb]. split; auto. split.
    - rewrite R2, map_length, N. apply numWords_bound.
    - intros i Hi. rewrite Gb. apply nth_overflow. lia. }
  destruct G as (lvs & F1 & F2). exists lvs. unfold suffixVector_init.
  assert (LL : length (map lv_suffixes lvs) = length lvs) by apply map_length.
  destruct (bitVector_init_correct (map lv_suffixes lvs) (map (fun lv => lv_suffixCount lv * slen) lvs)) as (bv & E1 & R1).
  { rewrite (firstn_map_len _ lvs _ LL). clear -F2. induction F2 as [|g lv gs lvs [H _] _ IH]; constructor; auto. }
  rewrite (skipn_map_len _ lvs _ LL) in R1. cbn [nsum fold_right repeat] in R1. rewrite app_nil_r in R1.
  assert (CB : concat_levels (map lv_suffixes lvs) (map (fun lv => lv_suffixCount lv * slen) lvs) = sufbits c (map psfx (concat groups))).
  { clear -F2. induction F2 as [|g lv gs lvs [_ H] _ IH]; [reflexivity|]. cbn [map concat_levels concat]. rewrite map_app. unfold sufbits in *. rewrite flat_map_app, <- IH, <- H. reflexivity. }
  rewrite CB in R1. rewrite E1. cbn [bind]. eexists. split; auto. split; [reflexivity|].
  set (v := mkXV bv (c_type c) (c_hashLen c) (c_realLen c)).
  intros i k d Hi.
  assert (Li : i < length (concat groups)) by (apply nth_error_Some; congruence).
  assert (XS : xv_suffixLen v = slen) by reflexivity.
  assert (ER : suffix_read v i = Ok (psfx (k, d))).
  { destruct (suffix_read_spec v _ i R1) as (r & Er & Hr).
    - rewrite XS. lia.
    - rewrite XS, sufbits_length, map_length. nia.
    - rewrite Er. f_equal. apply N.bits_inj. intros q.
      assert (E : tb r (N.to_nat q) = tb (psfx (k, d)) (N.to_nat q)); [|unfold tb in E; rewrite N2Nat.id in E; exact E].
      rewrite Hr, XS. destruct (Nat.ltb_spec (N.to_nat q) slen) as [L|L]; cbn [andb].
      + rewrite nth_sufbits by (rewrite ?map_length; auto). f_equal. apply nth_error_nth. rewrite nth_error_map, Hi. reflexivity.
      + symmetry. unfold tb. assert (Wk : wf_bytes k = true). { rewrite Forall_forall in W. apply (W (k, d)). eapply nth_error_In; eauto. }
        assert (B : (psfx (k, d) < 2 ^ N.of_nat slen)%N) by (apply sfx_bound; auto; apply CO).
        destruct (N.eq_dec (psfx (k, d)) 0) as [->|NZ]; [apply N.bits_0|].
        apply N.bits_above_log2. apply N.log2_lt_pow2 in B; lia. }
  split; [rewrite ER; unfold psfx; cbn [fst snd]; symmetry; apply sfx_spec|].
  split; [|rewrite XS; cbn [v xv_bv]; rewrite (proj1 R1), sufbits_length, map_length; nia].
  unfold checkEquality. rewrite ER. cbn [v xv_type xv_bv bv_numBits]. fold v. rewrite XS, (proj1 R1), sufbits_length, map_length.
  cbn [v xv_realLen xv_hashLen].
  destruct (Nat.leb_spec (length (concat groups) * slen) (i * slen)); [nia|]. cbn [bind]. rewrite (sfx_spec fp). cbn [bind].
  pose proof (smatch_self fp c k (d + 1)) as SM. unfold smatch in SM. unfold psfx. cbn [fst snd].
  destruct (c_type c) eqn:T; cbn [suffixType_eqb andb] in *; try reflexivity; try (f_equal; exact SM).
  destruct (N.eqb (sfx fp RealSuffix (c_hashLen c) (c_realLen c) k (d + 1)) 0); [reflexivity|]. cbn [orb] in SM.
  destruct (Nat.ltb (length k) (d + 1) || Nat.ltb ((length k - (d + 1)) * 8) (c_realLen c)); [discriminate|]. f_equal. exact SM.
Qed.
Theorem suffixes_roundtrip (groups : list (list (bytes * nat))) : c_type c <> NoneSuffix ->
  Forall (fun p => wf_bytes (fst p) = true) (concat groups) ->
  exists lvs v, Forall2 (fun g lv => insert_suffixes fp c g emptyLevel = Ok lv) groups lvs /\
    suffixVector_init (c_type c) (c_hashLen c) (c_realLen c) (map lv_suffixes lvs) (map (fun lv => lv_suffixCount lv * slen) lvs) = Ok v /\
    forall i k d, nth_error (concat groups) i = Some (k, d) ->
      suffix_read v i = constructSuffix fp k (d + 1) (c_type c) (c_realLen c) (c_hashLen c) /\
      checkEquality fp v i k (d + 1) = Ok true.
Proof.
  intros NT W. destruct (suffixes_roundtrip_in groups NT W) as (lvs & v & A & B & C). exists lvs, v. split; [exact A|]. split; [exact B|].
  intros i k d H. destruct (C i k d H) as (C1 & C2 & _). auto.
Qed.
End Suf.
