(** * SuRF iterators: properties C26, C27, C35, C37. *)
From Verif Require Import Base BitsModel VecModel SurfModel SurfTrie SurfEnc SurfSuffix SurfBuildTop SurfSpec SurfTop SurfSuffix2 SurfSuffix3 SurfIter SurfIterSpec SurfIterMain Props_Surf.

(** The visited list, computed, for the examples. *)
Fixpoint walk (s : surf) (step : iter -> res iter) (fuel : nat) (it : iter) : res (list (bytes * bytes)) :=
  match fuel with
  | O => Hang
  | S f => if it_valid it then k <- it_key it ;; v <- it_value s it ;; it <- step it ;; r <- walk s step f it ;; Ok ((k, v) :: r) else Ok []
  end.
Lemma walk_visits s step fuel : forall it l, walk s step fuel it = Ok l -> visits s step it l.
Proof.
  induction fuel as [|f IH]; intros it l H; [discriminate|]. cbn [walk] in H. destruct (it_valid it) eqn:V.
  - destruct (it_key it) as [k| |] eqn:K; try discriminate. cbn [bind] in H. destruct (it_value s it) as [v| |] eqn:W; try discriminate. cbn [bind] in H.
    destruct (step it) as [it'| |] eqn:E; try discriminate. cbn [bind] in H. destruct (walk s step f it') as [r| |] eqn:R; try discriminate. cbn [bind] in H.
    apply Ok_eq in H. subst l. eapply visits_step; eauto.
  - apply Ok_eq in H. subst l. now constructor.
Qed.
Lemma visits_fun s step it l : visits s step it l -> forall l', visits s step it l' -> l = l'.
Proof.
  induction 1 as [it V|it k v it' l V K W E H IH]; intros l' H'; inversion H' as [? V'|? k' v' it2 l2 V' K' W' E' H2]; subst; try congruence.
  rewrite K in K'. apply Ok_eq in K'. rewrite W in W'. apply Ok_eq in W'. rewrite E in E'. apply Ok_eq in E'. subst. f_equal. now apply IH.
Qed.

Notation mkvals n := (map (fun i => [i; 50]) (seq 0 n)).
Lemma built_small fp vs h r keys vals hint s b : forallb (fun k => Nat.ltb (length k) 8) keys = true ->
  surf_build fp 8 (newBuilder vs h r) keys vals hint = Ok (s, b) -> built fp vs h r keys vals hint s.
Proof.
  intros X E. exists 8, b. split; [|exact E]. apply Forall_forall. intros k Hk. rewrite forallb_forall in X. apply Nat.ltb_lt. auto.
Qed.
Ltac build_with ks h r hint s E X :=
  match goal with _ => destruct (surf_build ex_fp 8 (newBuilder 1 h r) ks (mkvals (length ks)) hint) as [[s ?b]| |] eqn:E; [|destruct X|destruct X] end.

(** ** C26. Forward iteration. Partial: the filter has at least one dense level and no stored
    key is a prefix of all the others; [shown] is the pair (distinguishing prefix, value). *)
Theorem C26_forward_partial : forall fp vs h r keys vals hint s, valid_input vs h r keys vals ->
  built fp vs h r keys vals hint s -> forall it0, iter_for s it0 -> 0 < ld_height (s_ld s) -> ~ prefix_of_all keys ->
  exists it, it_seekToFirst s it0 = Ok it /\ visits s (it_next s) it (map (shown vs keys) (combine keys vals)).
Proof. exact iterate_forward. Qed.
Print Assumptions C26_forward_partial.

(** [iter_for] holds of a new iterator. *)
Theorem C26_new_iterator : forall s, iter_for s (newIterator s).
Proof. exact new_iter_for. Qed.

(** Keys for which the trie has dense and sparse levels, terminators on both sides, and
    compressed paths. *)
Definition it_keys : list bytes :=
  [[1]; [1; 5; 5]; [1; 5; 5; 0; 9]; [1; 5; 5; 2; 7; 7]; [1; 5; 5; 2; 7; 8]; [2; 0; 1]; [2; 0; 3; 3; 3]; [2; 0; 3; 3; 4]; [2; 6]; [255]; [255; 255; 255]].
Lemma it_valid_input : valid_input 1 3 4 it_keys (mkvals (length it_keys)).
Proof. apply validb_input_ok. vm_compute. reflexivity. Qed.
Lemma it_not_prefix : ~ prefix_of_all it_keys.
Proof.
  intros (_ & k & I & P). pose proof (P [255] ltac:(cbn; tauto)) as (c1 & E1). pose proof (P [1] ltac:(cbn; tauto)) as (c2 & E2).
  destruct k as [|x k]; [|cbn in E1, E2; congruence]. cbn in I. repeat (destruct I as [I|I]; [discriminate|]). destruct I.
Qed.
Lemma it_not_zero : ~ zero_branch it_keys.
Proof.
  intros (p & P & (k & I & (c & E)) & _). pose proof (P [255] ltac:(cbn; tauto)) as (c1 & E1). pose proof (P [1] ltac:(cbn; tauto)) as (c2 & E2).
  destruct p as [|x p]; [|cbn in E1, E2; congruence]. cbn in I. repeat (destruct I as [I|I]; [subst k; discriminate|]). destruct I.
Qed.
Example C26_example : exists s, built ex_fp 1 3 4 it_keys (mkvals (length it_keys)) 1000 s /\ ld_height (s_ld s) = 3 /\ ls_height (s_ls s) = 4 /\
  (it <- it_seekToFirst s (newIterator s) ;; walk s (it_next s) 20 it) =
    Ok (map (shown 1 it_keys) (combine it_keys (mkvals (length it_keys)))) /\
  map (dprefix it_keys) it_keys =
    [[1]; [1; 5; 5]; [1; 5; 5; 0]; [1; 5; 5; 2; 7; 7]; [1; 5; 5; 2; 7; 8]; [2; 0; 1]; [2; 0; 3; 3; 3]; [2; 0; 3; 3; 4]; [2; 6]; [255]; [255; 255]].
Proof.
  assert (X : match surf_build ex_fp 8 (newBuilder 1 3 4) it_keys (mkvals (length it_keys)) 1000 with
    | Ok (s, _) => ld_height (s_ld s) = 3 /\ ls_height (s_ls s) = 4 /\ (it <- it_seekToFirst s (newIterator s) ;; walk s (it_next s) 20 it) =
        Ok (map (shown 1 it_keys) (combine it_keys (mkvals (length it_keys))))
    | _ => False end) by (vm_compute; auto).
  build_with it_keys 3 4 1000%Z s E X. destruct X as (X1 & X2 & X3). exists s.
  split; [apply (built_small _ _ _ _ _ _ _ _ b); [reflexivity|exact E]|]. split; [exact X1|]. split; [exact X2|]. split; [exact X3|]. vm_compute. reflexivity.
Qed.

(** False without those restrictions: without a dense level the iterator is never valid after
    SeekToFirst or SeekToLast ... *)
Theorem C26_sparse_only_refuted : forall s it0 it, ld_height (s_ld s) = 0 -> it_seekToFirst s it0 = Ok it -> it_valid it = false.
Proof.
  intros s it0 it H E. unfold it_seekToFirst, it_sparse in E. rewrite H in E. cbn [Nat.ltb Nat.leb] in E.
  destruct (match ls_height (s_ls s) with 0 => false | S _ => true end).
  - destruct (p <- p_setToFirst (s_ls s) (i_sparse (it_reset it0));; p_moveLeft (s_ls s) p) as [p| |]; try discriminate. cbn [bind] in E. apply Ok_eq in E. subst it. reflexivity.
  - apply Ok_eq in E. subst it. reflexivity.
Qed.
Print Assumptions C26_sparse_only_refuted.
Definition flat_keys : list bytes := [[1; 5]; [2; 6]; [9]].
Theorem C26_forward_refuted : exists fp vs h r keys vals hint s it, valid_input vs h r keys vals /\ built fp vs h r keys vals hint s /\
  it_seekToFirst s (newIterator s) = Ok it /\ ~ visits s (it_next s) it (map (shown vs keys) (combine keys vals)).
Proof.
  assert (X : match surf_build ex_fp 8 (newBuilder 1 0 0) flat_keys (mkvals (length flat_keys)) 1000 with
    | Ok (s, _) => match it_seekToFirst s (newIterator s) with Ok it => it_valid it = false | _ => False end
    | _ => False end) by (vm_compute; auto).
  build_with flat_keys 0 0 1000%Z s E X. destruct (it_seekToFirst s (newIterator s)) as [it| |] eqn:F; [|destruct X|destruct X].
  exists ex_fp, 1, 0, 0, flat_keys, (mkvals (length flat_keys)), 1000%Z, s, it.
  split; [apply validb_input_ok; vm_compute; reflexivity|]. split; [apply (built_small _ _ _ _ _ _ _ _ b); [reflexivity|exact E]|]. split; [exact F|].
  intros V. inversion V. congruence.
Qed.
Print Assumptions C26_forward_refuted.
(** ... and with a dense level, a key that is a prefix of all the others is skipped. *)
Definition pre_keys : list bytes := [[7]; [7; 5]; [7; 6; 1]; [7; 6; 2]].
Theorem C26_prefix_key_refuted : exists fp vs h r keys vals hint s it l, valid_input vs h r keys vals /\ built fp vs h r keys vals hint s /\
  0 < ld_height (s_ld s) /\ it_seekToFirst s (newIterator s) = Ok it /\ visits s (it_next s) it l /\ length l < length keys.
Proof.
  assert (X : match surf_build ex_fp 8 (newBuilder 1 0 0) pre_keys (mkvals (length pre_keys)) 1000 with
    | Ok (s, _) => ld_height (s_ld s) = 1 /\ match it_seekToFirst s (newIterator s) with Ok it => walk s (it_next s) 9 it = Ok [([7; 5], [1]); ([7; 6; 1], [2]); ([7; 6; 2], [3])] | _ => False end
    | _ => False end) by (vm_compute; auto).
  build_with pre_keys 0 0 1000%Z s E X. destruct X as [X1 X]. destruct (it_seekToFirst s (newIterator s)) as [it| |] eqn:F; [|destruct X|destruct X].
  exists ex_fp, 1, 0, 0, pre_keys, (mkvals (length pre_keys)), 1000%Z, s, it, [([7; 5], [1]); ([7; 6; 1], [2]); ([7; 6; 2], [3])].
  split; [apply validb_input_ok; vm_compute; reflexivity|]. split; [apply (built_small _ _ _ _ _ _ _ _ b); [reflexivity|exact E]|].
  split; [rewrite X1; repeat constructor|]. split; [exact F|]. split; [eapply walk_visits; exact X|]. cbn. repeat constructor.
Qed.
Print Assumptions C26_prefix_key_refuted.

(** ** C27. Backward iteration. Partial: additionally the first byte in which the stored keys
    differ is not 0 in any of them. *)
Theorem C27_backward_partial : forall fp vs h r keys vals hint s, valid_input vs h r keys vals ->
  built fp vs h r keys vals hint s -> forall it0, iter_for s it0 -> 0 < ld_height (s_ld s) -> ~ prefix_of_all keys -> ~ zero_branch keys ->
  exists it, it_seekToLast s it0 = Ok it /\ visits s (it_prev s) it (map (shown vs keys) (rev (combine keys vals))).
Proof. exact iterate_backward. Qed.
Print Assumptions C27_backward_partial.
Example C27_example : exists s, built ex_fp 1 3 4 it_keys (mkvals (length it_keys)) 1000 s /\ ld_height (s_ld s) = 3 /\
  (it <- it_seekToLast s (newIterator s) ;; walk s (it_prev s) 20 it) =
    Ok (map (shown 1 it_keys) (rev (combine it_keys (mkvals (length it_keys))))).
Proof.
  assert (X : match surf_build ex_fp 8 (newBuilder 1 3 4) it_keys (mkvals (length it_keys)) 1000 with
    | Ok (s, _) => ld_height (s_ld s) = 3 /\ (it <- it_seekToLast s (newIterator s) ;; walk s (it_prev s) 20 it) =
        Ok (map (shown 1 it_keys) (rev (combine it_keys (mkvals (length it_keys)))))
    | _ => False end) by (vm_compute; auto).
  build_with it_keys 3 4 1000%Z s E X. destruct X as (X1 & X2). exists s.
  split; [apply (built_small _ _ _ _ _ _ _ _ b); [reflexivity|exact E]|]. split; [exact X1|exact X2].
Qed.
(** False without that: the keys below label 0 of the root are never reached backwards. *)
Definition zero_keys : list bytes := [[0; 5]; [0; 6]; [1; 6; 2]].
Theorem C27_backward_refuted : exists fp vs h r keys vals hint s it l, valid_input vs h r keys vals /\ built fp vs h r keys vals hint s /\
  0 < ld_height (s_ld s) /\ ~ prefix_of_all keys /\ it_seekToLast s (newIterator s) = Ok it /\ visits s (it_prev s) it l /\ length l < length keys.
Proof.
  assert (X : match surf_build ex_fp 8 (newBuilder 1 0 0) zero_keys (mkvals (length zero_keys)) 1000 with
    | Ok (s, _) => ld_height (s_ld s) = 1 /\ match it_seekToLast s (newIterator s) with Ok it => walk s (it_prev s) 9 it = Ok [([1], [2])] | _ => False end
    | _ => False end) by (vm_compute; auto).
  build_with zero_keys 0 0 1000%Z s E X. destruct X as [X1 X]. destruct (it_seekToLast s (newIterator s)) as [it| |] eqn:F; [|destruct X|destruct X].
  exists ex_fp, 1, 0, 0, zero_keys, (mkvals (length zero_keys)), 1000%Z, s, it, [([1], [2])].
  split; [apply validb_input_ok; vm_compute; reflexivity|]. split; [apply (built_small _ _ _ _ _ _ _ _ b); [reflexivity|exact E]|].
  split; [rewrite X1; repeat constructor|]. split.
  { intros (_ & k & I & P). pose proof (P [0; 5] ltac:(cbn; tauto)) as (c1 & E1). pose proof (P [1; 6; 2] ltac:(cbn; tauto)) as (c2 & E2).
    destruct k as [|x k]; [|cbn in E1, E2; congruence]. cbn in I. repeat (destruct I as [I|I]; [discriminate|]). destruct I. }
  split; [exact F|]. split; [eapply walk_visits; exact X|]. cbn. repeat constructor.
Qed.
Print Assumptions C27_backward_refuted.
Theorem C27_sparse_only_refuted : forall s it0 it, ld_height (s_ld s) = 0 -> it_seekToLast s it0 = Ok it -> it_valid it = false.
Proof.
  intros s it0 it H E. unfold it_seekToLast, it_sparse in E. rewrite H in E. cbn [Nat.ltb Nat.leb] in E.
  destruct (match ls_height (s_ls s) with 0 => false | S _ => true end).
  - destruct (p <- p_setToLast (s_ls s) (i_sparse (it_reset it0));; p_moveRight (s_ls s) p) as [p| |]; try discriminate. cbn [bind] in E. apply Ok_eq in E. subst it. reflexivity.
  - apply Ok_eq in E. subst it. reflexivity.
Qed.
Print Assumptions C27_sparse_only_refuted.

(** ** C37. A step from a valid iterator can panic: Prev at a key that is a prefix of all. *)
Theorem C37_iterator_panic_refuted : exists fp vs h r keys vals hint s it b, valid_input vs h r keys vals /\ built fp vs h r keys vals hint s /\
  it_seek s (newIterator s) [] = Ok (it, b) /\ it_valid it = true /\ it_prev s it = Panic.
Proof.
  assert (X : match surf_build ex_fp 8 (newBuilder 1 0 0) pre_keys (mkvals (length pre_keys)) 1000 with
    | Ok (s, _) => match it_seek s (newIterator s) [] with Ok (it, _) => it_valid it = true /\ it_prev s it = Panic | _ => False end
    | _ => False end) by (vm_compute; auto).
  build_with pre_keys 0 0 1000%Z s E X. destruct (it_seek s (newIterator s) []) as [[it b1]| |] eqn:F; [|destruct X|destruct X].
  exists ex_fp, 1, 0, 0, pre_keys, (mkvals (length pre_keys)), 1000%Z, s, it, b1.
  split; [apply validb_input_ok; vm_compute; reflexivity|]. split; [apply (built_small _ _ _ _ _ _ _ _ b); [reflexivity|exact E]|].
  split; [exact F|]. exact X.
Qed.
Print Assumptions C37_iterator_panic_refuted.

(** ** C35. Suffix comparison, for real suffixes of 1 to 8 bits. [groups] are the levels of
    (key, depth) pairs whose suffixes are stored; [d + 1] bytes of the key are in the trie. *)
Theorem C35_compare_partial : forall fp c, cfg_ok c -> 1 <= c_realLen c -> c_realLen c <= 8 -> forall groups,
  Forall (fun p => wf_bytes (fst p) = true) (concat groups) ->
  exists lvs v, Forall2 (fun g lv => insert_suffixes fp c g emptyLevel = Ok lv) groups lvs /\
    suffixVector_init (c_type c) (c_hashLen c) (c_realLen c) (map lv_suffixes lvs) (map (fun lv => lv_suffixCount lv * c_suffixLen c) lvs) = Ok v /\
    forall i k d q, nth_error (concat groups) i = Some (k, d) -> wf_bytes q = true -> firstn (d + 1) k = firstn (d + 1) q ->
      exists cmp, suffix_compare v q i (d + 1) = Ok cmp /\ (cmp = (-1)%Z -> blt k q) /\ (cmp = 1%Z -> blt q k) /\
        (cmp = (-1)%Z \/ cmp = 1%Z \/ cmp = couldBePositive).
Proof. exact compare_respects_order. Qed.
Print Assumptions C35_compare_partial.
Example C35_example : match insert_suffixes ex_fp (mkcfg 1 3 6) [([1; 5; 9], 0); ([1; 200], 0)] emptyLevel with
  | Ok lv => match suffixVector_init MixedSuffix 3 6 [lv_suffixes lv] [lv_suffixCount lv * 9] with
             | Ok v => map (fun q => suffix_compare v q 1 1) [[1; 10]; [1; 200; 4]; [1; 255]] = [Ok 1%Z; Ok couldBePositive; Ok (-1)%Z]
             | _ => False end
  | _ => False end.
Proof. vm_compute. reflexivity. Qed.

(** False for longer suffixes: the stored key is greater than the query but reported less. *)
Theorem C35_compare_refuted : exists fp c k d q lv v, cfg_ok c /\ insert_suffixes fp c [(k, d)] emptyLevel = Ok lv /\
  suffixVector_init (c_type c) (c_hashLen c) (c_realLen c) [lv_suffixes lv] [lv_suffixCount lv * c_suffixLen c] = Ok v /\
  firstn (d + 1) k = firstn (d + 1) q /\ suffix_compare v q 0 (d + 1) = Ok (-1)%Z /\ blt q k.
Proof.
  exists ex_fp, (mkcfg 1 0 9), [1; 5], 0, [1; 1; 9].
  assert (X : match insert_suffixes ex_fp (mkcfg 1 0 9) [([1; 5], 0)] emptyLevel with
    | Ok lv => match suffixVector_init RealSuffix 0 9 [lv_suffixes lv] [lv_suffixCount lv * 9] with Ok v => suffix_compare v [1; 1; 9] 0 1 = Ok (-1)%Z | _ => False end | _ => False end) by (vm_compute; reflexivity).
  destruct (insert_suffixes ex_fp (mkcfg 1 0 9) [([1; 5], 0)] emptyLevel) as [lv| |]; [|destruct X|destruct X].
  destruct (suffixVector_init RealSuffix 0 9 [lv_suffixes lv] [lv_suffixCount lv * 9]) as [v| |] eqn:E; [|destruct X|destruct X].
  exists lv, v. split; [split; [reflexivity|cbn; repeat constructor]|]. split; [reflexivity|]. split; [exact E|]. split; [reflexivity|]. split; [exact X|reflexivity].
Qed.
Print Assumptions C35_compare_refuted.
(** Also when both keys are long enough: the middle bytes of a 17-bit suffix come from the start of
    the key, so a byte of the key is left out. *)
Theorem C35_compare_17_refuted : exists fp c k d q lv v, cfg_ok c /\ c_realLen c = 17 /\ insert_suffixes fp c [(k, d)] emptyLevel = Ok lv /\
  suffixVector_init (c_type c) (c_hashLen c) (c_realLen c) [lv_suffixes lv] [lv_suffixCount lv * c_suffixLen c] = Ok v /\
  firstn (d + 1) k = firstn (d + 1) q /\ length k = length q /\ suffix_compare v q 0 (d + 1) = Ok (-1)%Z /\ blt q k.
Proof.
  exists ex_fp, (mkcfg 1 0 17), [1; 5; 9; 0], 0, [1; 5; 8; 128].
  assert (X : match insert_suffixes ex_fp (mkcfg 1 0 17) [([1; 5; 9; 0], 0)] emptyLevel with
    | Ok lv => match suffixVector_init RealSuffix 0 17 [lv_suffixes lv] [lv_suffixCount lv * 17] with Ok v => suffix_compare v [1; 5; 8; 128] 0 1 = Ok (-1)%Z | _ => False end | _ => False end) by (vm_compute; reflexivity).
  destruct (insert_suffixes ex_fp (mkcfg 1 0 17) [([1; 5; 9; 0], 0)] emptyLevel) as [lv| |]; [|destruct X|destruct X].
  destruct (suffixVector_init RealSuffix 0 17 [lv_suffixes lv] [lv_suffixCount lv * 17]) as [v| |] eqn:E; [|destruct X|destruct X].
  exists lv, v. split; [split; [reflexivity|cbn; repeat constructor]|]. split; [reflexivity|]. split; [reflexivity|]. split; [exact E|]. split; [reflexivity|]. split; [reflexivity|]. split; [exact X|reflexivity].
Qed.
Print Assumptions C35_compare_17_refuted.
