(** * SurfSeekAll: comparison of stored suffixes of any length, and its consequences for Seek and
    HasOverlap. *)
From Verif Require Import Base BitsModel BitsFacts VecModel VecProofs VecProofs2 SurfModel SurfTrie SurfSuffix SurfBuild SurfDense SurfEnc SurfBuildTop SurfGet SurfGet2 SurfSpec SurfWalk SurfTop SurfSuffix2 SurfSuffix3 SurfGetSpec SurfExact SurfIter SurfIterSpec SurfVerdict SurfIterMain SurfIterSeek3.
Ltac Zify.zify_post_hook ::= Z.div_mod_to_equations.

(** ** Compare returns the order of the kept parts *)
Theorem compare_exact fp c : cfg_ok c -> c_type c <> NoneSuffix -> forall groups,
  Forall (fun p => wf_bytes (fst p) = true) (concat groups) ->
  exists lvs v, Forall2 (fun g lv => insert_suffixes fp c g emptyLevel = Ok lv) groups lvs /\
    suffixVector_init (c_type c) (c_hashLen c) (c_realLen c) (map lv_suffixes lvs) (map (fun lv => lv_suffixCount lv * c_suffixLen c) lvs) = Ok v /\
    forall i k d q L, nth_error (concat groups) i = Some (k, d) -> wf_bytes q = true ->
      suffix_compare v q i L =
        Ok match part_compare (real_or_zero (d + 1) (c_realLen c) k) (real_or_zero L (c_realLen c) q) with
           | Lt => (-1)%Z | Eq => couldBePositive | Gt => 1%Z end.
Proof.
  intros CO NT groups W. destruct (suffixes_roundtrip_in fp c CO groups NT W) as (lvs & v & F & I & S).
  exists lvs, v. split; [exact F|]. split; [exact I|]. intros i k d q L Hi Wq. destruct (S i k d Hi) as (RD & _ & BN).
  assert (Wk : wf_bytes k = true) by (rewrite Forall_forall in W; apply (W (k, d)); eapply nth_error_In; eauto).
  assert (VT : xv_type v = c_type c /\ xv_realLen v = c_realLen c).
  { unfold suffixVector_init in I. destruct (bitVector_init _ _); try discriminate. cbn [bind] in I. apply Ok_eq in I. subst v. auto. }
  destruct VT as [VT VR]. unfold suffix_compare. rewrite VT, VR.
  destruct (suffixType_eqb (c_type c) NoneSuffix || suffixType_eqb (c_type c) HashSuffix) eqn:CT.
  { rewrite <- orb_assoc, CT, orb_true_r. assert (E : c_realLen c = 0). { destruct CO as [CT' _]. rewrite CT' in CT.
    destruct (Nat.eqb (c_hashLen c) 0), (Nat.eqb_spec (c_realLen c) 0); cbn in CT; auto; discriminate. }
    rewrite E, !real_or_zero_0 by auto. reflexivity. }
  apply orb_false_iff in CT as [C2 C3].
  assert (TT : c_type c = RealSuffix \/ c_type c = MixedSuffix) by (destruct (c_type c); auto; discriminate).
  assert (R1 : 1 <= c_realLen c <= 64).
  { destruct CO as [CT CL]. unfold c_suffixLen in CL. split; [|lia]. destruct (c_realLen c) eqn:ER; [|lia]. exfalso. rewrite CT in TT. destruct (c_hashLen c); cbn in TT; destruct TT; discriminate. }
  assert (C1 : Nat.leb (bv_numBits (xv_bv v)) (i * xv_suffixLen v) = false) by (apply Nat.leb_gt; exact BN).
  rewrite C1, C2, C3. cbn [bind orb]. rewrite RD, (sfx_spec fp). cbn [bind].
  pose proof (sfx_spec fp (c_type c) (c_hashLen c) (c_realLen c) k (d + 1)) as SF.
  pose proof (real_val (d + 1) (c_realLen c) k Wk (proj1 R1) (proj2 R1)) as RV.
  rewrite (extract_any fp _ _ _ k (d + 1) _ _ (proj1 R1) (proj2 R1) TT Wk SF RV). rewrite (real_val L (c_realLen c) q Wq (proj1 R1) (proj2 R1)). cbn [bind].
  rewrite <- (enc_compare (c_realLen c)) by (apply real_or_zero_ok; auto). set (a := enc _ _). set (b := enc _ _).
  destruct (N.eqb_spec a 0) as [->|A0], (N.eqb_spec b 0) as [->|B0]; cbn [andb orb]; try reflexivity.
  - destruct (N.compare_spec 0 b); try reflexivity; lia.
  - destruct (N.ltb_spec a 0); [lia|]. destruct (N.eqb_spec a 0); [lia|]. destruct (N.compare_spec a 0); try reflexivity; lia.
  - destruct (N.ltb_spec a b), (N.eqb_spec a b), (N.compare_spec a b); try reflexivity; lia.
Qed.

(** ** For every length above 8 bits the order of the kept parts can be wrong *)
Definition short_key : bytes := [1; 200].
Definition long_query : bytes := [1; 100; 255; 255; 255; 255; 255; 255; 255; 255].
Lemma long_less r : 9 <= r -> r <= 64 -> part_compare (real_or_zero 1 r short_key) (real_or_zero 1 r long_query) = Lt.
Proof.
  intros R1 R2. assert (X : In r (seq 9 56)) by (apply in_seq; lia). cbn [seq In] in X.
  repeat (destruct X as [<-|X]; [vm_compute; reflexivity|]). destruct X.
Qed.

Theorem compare_long fp c : cfg_ok c -> 9 <= c_realLen c -> exists k q lv v,
  wf_bytes k = true /\ wf_bytes q = true /\ firstn 1 k = firstn 1 q /\ blt q k /\ insert_suffixes fp c [(k, 0)] emptyLevel = Ok lv /\
  suffixVector_init (c_type c) (c_hashLen c) (c_realLen c) [lv_suffixes lv] [lv_suffixCount lv * c_suffixLen c] = Ok v /\
  suffix_compare v q 0 1 = Ok (-1)%Z.
Proof.
  intros CO R. assert (NT : c_type c <> NoneSuffix).
  { destruct CO as [-> _]. destruct (Nat.eqb (c_hashLen c) 0), (Nat.eqb_spec (c_realLen c) 0); cbn; try discriminate. lia. }
  destruct (compare_exact fp c CO NT [[(short_key, 0)]]) as (lvs & v & F & I & S); [repeat constructor|].
  inversion F as [|? lv ? ? E F']; subst. inversion F'; subst. cbn [map] in I.
  exists short_key, long_query, lv, v. split; [reflexivity|]. split; [reflexivity|]. split; [reflexivity|]. split; [reflexivity|]. split; [exact E|]. split; [exact I|].
  rewrite (S 0 short_key 0 long_query 1) by reflexivity. change (0 + 1) with 1. rewrite long_less; [reflexivity|exact R|].
  destruct CO as [_ CL]. unfold c_suffixLen in CL. lia.
Qed.

(** ** Seek and HasOverlap then miss a stored key *)
Definition short_keys : list bytes := [[1; 200]; [2]].
Definition short_vals : list bytes := [[7]; [8]].
Lemma short_valid h r : h + r <= 64 -> valid_input 1 h r short_keys short_vals.
Proof.
  intros L. constructor; try assumption; try discriminate; try reflexivity; try (cbn; lia).
  - repeat constructor.
  - repeat constructor.
  - repeat constructor.
Qed.
Lemma free_path dense keys q : prefix_free keys -> path_ok dense keys q.
Proof. intros PF k I. exfalso. exact (prefix_free_inner _ _ PF I). Qed.
Lemma short_free : prefix_free short_keys.
Proof.
  intros k k' H H' P. apply is_prefixb_iff in P.
  assert (X : forallb (fun a => forallb (fun b => negb (is_prefixb a b) || beqb a b) short_keys) short_keys = true) by (vm_compute; reflexivity).
  rewrite forallb_forall in X. specialize (X k H). rewrite forallb_forall in X. specialize (X k' H'). rewrite P in X. cbn [negb orb] in X. now apply beqb_eq.
Qed.

Theorem seek_long fp h r hint s : 9 <= r -> h + r <= 64 -> built fp 1 h r short_keys short_vals hint s ->
  forall it0, iter_for s it0 -> exists it b, it_seek s it0 long_query = Ok (it, b) /\ it_valid it = true /\ it_key it = Ok [2] /\ it_value s it = Ok [8].
Proof.
  intros R HR B it0 IF. pose proof (short_valid h r HR) as V.
  destruct (seek_exact fp 1 h r _ _ hint s V B long_query it0) as (it & b & below & rest & E & C & PB & PR & VI & M); [reflexivity|exact IF|apply free_path, short_free|].
  exists it, b. split; [exact E|].
  assert (P1 : passedb r short_keys long_query [1; 200] = true).
  { unfold passedb. replace (nearb short_keys [1; 200] long_query) with true by (vm_compute; reflexivity).
    replace (length (dprefix short_keys [1; 200])) with 1 by (vm_compute; reflexivity). unfold verdict. fold short_key. rewrite long_less; auto. lia. }
  assert (P2 : passedb r short_keys long_query [2] = false).
  { unfold passedb. replace (nearb short_keys [2] long_query) with false by (vm_compute; reflexivity). reflexivity. }
  cbn [short_keys short_vals combine] in C.
  destruct below as [|e1 below]; [cbn [app] in C; subst rest; apply Forall_inv in PR; cbn [fst] in PR; congruence|].
  injection C as <- C. destruct below as [|e2 below].
  - cbn [app] in C. subst rest. cbn [map shown fst snd] in VI. inversion VI as [|? ? ? it' ? Vd K Vl St Vs]; subst. split; [exact Vd|]. split; [exact K|exact Vl].
  - exfalso. injection C as <- C. apply Forall_inv_tail, Forall_inv in PB. cbn [fst] in PB. congruence.
Qed.

Theorem overlap_long fp h r hint s : 9 <= r -> h + r <= 64 -> built fp 1 h r short_keys short_vals hint s ->
  hasOverlap s long_query [1; 255] true = Ok false.
Proof.
  intros R HR B. pose proof (short_valid h r HR) as V.
  rewrite (overlap_exact fp 1 h r _ _ hint s V B long_query [1; 255] true); [|reflexivity|reflexivity|apply free_path, short_free]. f_equal.
  unfold overlap_answer. cbn [short_keys find]. fold short_keys.
  assert (P1 : passedb r short_keys long_query [1; 200] = true).
  { unfold passedb. replace (nearb short_keys [1; 200] long_query) with true by (vm_compute; reflexivity).
    replace (length (dprefix short_keys [1; 200])) with 1 by (vm_compute; reflexivity). unfold verdict. fold short_key. rewrite long_less; auto. lia. }
  assert (P2 : passedb r short_keys long_query [2] = false).
  { unfold passedb. replace (nearb short_keys [2] long_query) with false by (vm_compute; reflexivity). reflexivity. }
  rewrite P1, P2. cbn [negb]. unfold compared.
  replace (is_prefixb (dprefix short_keys [2]) [1; 255]) with false by (vm_compute; reflexivity).
  replace (continuedb short_keys [2]) with false by (vm_compute; reflexivity). rewrite andb_false_r. cbn [andb]. reflexivity.
Qed.
