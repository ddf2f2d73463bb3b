(** * Suffix construction: always succeeds, fits its width. *)
From Verif Require Import Base BitsModel BitsFacts VecModel VecProofs VecProofs2 SurfModel.
Ltac Zify.zify_post_hook ::= Z.div_mod_to_equations.

Lemma Ok_eq {A} (x y : A) : Ok x = Ok y -> x = y.
Proof. congruence. Qed.

Lemma w64_le x : (w64 x <= x)%N.
Proof. unfold w64. apply N.mod_le. discriminate. Qed.

Lemma pow2_nat_pos n : (0 < 2 ^ N.of_nat n)%N.
Proof. apply N.neq_0_lt_0. apply N.pow_nonzero. lia. Qed.

Lemma pow2_add a b : (2 ^ N.of_nat (a + b) = 2 ^ N.of_nat a * 2 ^ N.of_nat b)%N.
Proof. rewrite Nat2N.inj_add. apply N.pow_add_r. Qed.

Lemma real_loop_total todo : forall i key s, i + todo <= length key ->
  exists r, real_suffix_loop todo i key s = Ok r.
Proof.
  induction todo as [|todo IH]; intros i key s H; cbn [real_suffix_loop]; [eauto|].
  rewrite (idx_in key i 0) by lia. cbn [bind]. apply IH. lia.
Qed.

Lemma shl64_mul x n : (shl64 x (N.of_nat n) <= x * 2 ^ N.of_nat n)%N.
Proof. unfold shl64. rewrite N.shiftl_mul_pow2. apply w64_le. Qed.

Lemma real_loop_bound todo : forall i k key s r, wf_bytes key = true -> i + todo <= length key ->
  (s < 2 ^ N.of_nat (8 * k))%N -> real_suffix_loop todo i key s = Ok r -> (r < 2 ^ N.of_nat (8 * (k + todo)))%N.
Proof.
  induction todo as [|todo IH]; intros i k key s r Hw H Hs E; cbn [real_suffix_loop] in E.
  - inversion E; subst. now rewrite Nat.add_0_r.
  - rewrite (idx_in key i 0) in E by lia. cbn [bind] in E.
    replace (k + S todo) with (S k + todo) by lia. eapply IH; [exact Hw| |  |exact E]; [lia|].
    assert (Hb : nth i key 0 < 256).
    { unfold wf_bytes in Hw. rewrite forallb_forall in Hw. apply Nat.ltb_lt. apply Hw. apply nth_In. lia. }
    eapply N.le_lt_trans; [apply w64_le|]. pose proof (shl64_mul s 8) as M. change (N.of_nat 8) with 8%N in M.
    replace (8 * S k) with (8 * k + 8) by lia. rewrite pow2_add.
    change (2 ^ N.of_nat 8)%N with 256%N. change (2 ^ 8)%N with 256%N in M. nia.
Qed.

Lemma constructRealSuffix_total key level realLen : exists r, constructRealSuffix key level realLen = Ok r.
Proof.
  unfold constructRealSuffix. destruct (Nat.ltb_spec (length key) level); cbn [orb]; [eauto|].
  destruct (Nat.ltb_spec ((length key - level) * 8) realLen); cbn [orb]; [eauto|].
  destruct (Nat.ltb_spec 0 (realLen / 8)).
  - rewrite (idx_in key level 0) by lia. cbn [bind].
    destruct (real_loop_total (realLen / 8 - 1) 1 key (N.of_nat (nth level key 0))) as (r & E); [lia|]. rewrite E. cbn [bind].
    destruct (Nat.ltb_spec 0 (realLen mod 8)); [|eauto]. rewrite (idx_in key _ 0) by lia. cbn [bind]. eauto.
  - cbn [bind]. destruct (Nat.ltb_spec 0 (realLen mod 8)); [|eauto]. rewrite (idx_in key _ 0) by lia. cbn [bind]. eauto.
Qed.

Lemma constructRealSuffix_bound key level realLen r : wf_bytes key = true ->
  constructRealSuffix key level realLen = Ok r -> (r < 2 ^ N.of_nat realLen)%N.
Proof.
  intros Hw E. unfold constructRealSuffix in E. destruct (Nat.ltb_spec (length key) level); cbn [orb] in E.
  { inversion E. apply pow2_nat_pos. }
  destruct (Nat.ltb_spec ((length key - level) * 8) realLen); cbn [orb] in E.
  { inversion E. apply pow2_nat_pos. }
  assert (Hb : forall i, i < length key -> nth i key 0 < 256).
  { intros i Hi. unfold wf_bytes in Hw. rewrite forallb_forall in Hw. apply Nat.ltb_lt. apply Hw. now apply nth_In. }
  assert (F : forall s, (s < 2 ^ N.of_nat (8 * (realLen / 8)))%N ->
     (if Nat.ltb 0 (realLen mod 8) then b <- idx key (level + realLen / 8) ;;
        Ok (w64 (shl64 s (N.of_nat (realLen mod 8)) + shr64 (N.of_nat b) (N.of_nat (8 - realLen mod 8)))) else Ok s) = Ok r ->
     (r < 2 ^ N.of_nat realLen)%N).
  { intros s Hs E'. destruct (Nat.ltb_spec 0 (realLen mod 8)).
    - rewrite (idx_in key _ 0) in E' by lia. cbn [bind] in E'. apply Ok_eq in E'. subst r.
      eapply N.le_lt_trans; [apply w64_le|]. pose proof (shl64_mul s (realLen mod 8)) as M.
      specialize (Hb (level + realLen / 8) ltac:(lia)).
      set (o := realLen mod 8) in *. set (b := nth (level + realLen / 8) key 0) in *.
      assert (S1 : (shr64 (N.of_nat b) (N.of_nat (8 - o)) < 2 ^ N.of_nat o)%N).
      { unfold shr64. rewrite N.shiftr_div_pow2. apply N.div_lt_upper_bound; [apply N.pow_nonzero; lia|].
        rewrite <- pow2_add. replace (8 - o + o) with 8 by lia. change (2 ^ N.of_nat 8)%N with 256%N. lia. }
      replace realLen with (8 * (realLen / 8) + o) by lia. rewrite pow2_add.
      assert ((s + 1) * 2 ^ N.of_nat o <= 2 ^ N.of_nat (8 * (realLen / 8)) * 2 ^ N.of_nat o)%N by (apply N.mul_le_mono_r; lia).
      lia.
    - apply Ok_eq in E'. subst r. replace realLen with (8 * (realLen / 8)) by lia. exact Hs. }
  destruct (Nat.ltb_spec 0 (realLen / 8)).
  - rewrite (idx_in key level 0) in E by lia. cbn [bind] in E.
    destruct (real_suffix_loop (realLen / 8 - 1) 1 key (N.of_nat (nth level key 0))) as [s| |] eqn:El; cbn [bind] in E; try discriminate.
    apply (F s); auto.
    replace (8 * (realLen / 8)) with (8 * (1 + (realLen / 8 - 1))) by lia.
    eapply (real_loop_bound _ 1 1); [exact Hw| | |exact El]; [lia|].
    specialize (Hb level ltac:(lia)). change (2 ^ N.of_nat (8 * 1))%N with 256%N. lia.
  - cbn [bind] in E. apply (F 0%N); auto. apply pow2_nat_pos.
Qed.

Section Hash.
Variable fp : bytes -> N.

Lemma sub32_64 h : h <= 64 -> sub32 64 (N.of_nat h) = N.of_nat (64 - h).
Proof.
  intros H. unfold sub32. assert (N.of_nat h < two32)%N by (unfold two32; change (2 ^ 32)%N with 4294967296%N; lia).
  rewrite (N.mod_small (N.of_nat h)) by auto. unfold two32 in *. change (2 ^ 32)%N with 4294967296%N in *.
  replace (64 + 4294967296 - N.of_nat h)%N with (N.of_nat (64 - h) + 1 * 4294967296)%N by lia.
  rewrite N.mod_add by discriminate. apply N.mod_small. lia.
Qed.

Lemma constructHashSuffix_bound key h : h <= 64 -> (constructHashSuffix fp key h < 2 ^ N.of_nat h)%N.
Proof.
  intros H. unfold constructHashSuffix. rewrite sub32_64 by auto.
  assert (L : forall x, (x < two64)%N -> (shrv x (N.of_nat (64 - h)) < 2 ^ N.of_nat h)%N).
  { intros x Hx. unfold shrv. destruct (N.ltb_spec (N.of_nat (64 - h)) 64); [|apply pow2_nat_pos].
    unfold shr64. rewrite N.shiftr_div_pow2. apply N.div_lt_upper_bound; [apply N.pow_nonzero; lia|].
    rewrite <- pow2_add. replace (64 - h + h) with 64 by lia. exact Hx. }
  apply L. unfold shlv. match goal with |- context [if ?b then _ else _] => destruct b end; [apply shl64_lt|reflexivity].
Qed.

Lemma constructSuffix_total key level t r h : exists s, constructSuffix fp key level t r h = Ok s.
Proof.
  destruct t; cbn [constructSuffix]; eauto.
  - apply constructRealSuffix_total.
  - unfold constructMixedSuffix. destruct (constructRealSuffix_total key level r) as (s & ->). cbn [bind]. eauto.
Qed.

Lemma constructSuffix_bound key level t r h s : wf_bytes key = true -> h + r <= 64 ->
  constructSuffix fp key level t r h = Ok s -> (s < 2 ^ N.of_nat (h + r))%N.
Proof.
  intros Hw Hl E.
  assert (M : forall x n, n <= h + r -> (x < 2 ^ N.of_nat n)%N -> (x < 2 ^ N.of_nat (h + r))%N).
  { intros x n Hn Hx. eapply N.lt_le_trans; [exact Hx|]. apply N.pow_le_mono_r; lia. }
  destruct t; cbn [constructSuffix] in E.
  - inversion E. apply pow2_nat_pos.
  - inversion E; subst. apply (M _ h); [lia|]. apply constructHashSuffix_bound. lia.
  - apply (M _ r); [lia|]. eapply constructRealSuffix_bound; eauto.
  - unfold constructMixedSuffix in E. destruct (constructRealSuffix key level r) as [rs| |] eqn:Er; cbn [bind] in E; try discriminate.
    inversion E; subst. apply tb_lt_pow2. intros i Hi. rewrite tb_lor, tb_shlv.
    pose proof (constructHashSuffix_bound key h ltac:(lia)) as B1.
    pose proof (constructRealSuffix_bound key level r rs Hw Er) as B2.
    rewrite (tb_high rs r) by (auto; lia). rewrite (tb_high _ h (i - r)) by (auto; lia). now rewrite andb_false_r.
Qed.

(** The suffix value stored for a key at a level. *)
Definition sfx (t : SuffixType) (h r : nat) (key : bytes) (level : nat) : N :=
  match constructSuffix fp key level t r h with Ok s => s | _ => 0%N end.

Lemma sfx_spec t h r key level : constructSuffix fp key level t r h = Ok (sfx t h r key level).
Proof. unfold sfx. destruct (constructSuffix_total key level t r h) as (s & ->). reflexivity. Qed.

Lemma sfx_bound t h r key level : wf_bytes key = true -> h + r <= 64 -> (sfx t h r key level < 2 ^ N.of_nat (h + r))%N.
Proof. intros Hw Hl. eapply constructSuffix_bound; eauto. apply sfx_spec. Qed.
End Hash.
