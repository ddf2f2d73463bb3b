(** * SuRF Seek and HasOverlap: properties C28, C29, C36, C50, C51. *)
From Verif Require Import Base BitsModel VecModel SurfModel SurfTrie SurfEnc SurfSuffix SurfBuildTop SurfSpec SurfTop SurfSuffix2 SurfSuffix3 SurfIter SurfIterSpec SurfIterMain SurfIterSeek3 Props_Surf Props_Iter.

(** ** C36. Seek to a stored key. *)
Theorem C36_seek_stored : forall fp vs h r keys vals hint s, valid_input vs h r keys vals ->
  built fp vs h r keys vals hint s -> forall i k v it0, nth_error keys i = Some k -> nth_error vals i = Some v -> iter_for s it0 ->
  exists it b, it_seek s it0 k = Ok (it, b) /\ it_valid it = true /\ it_key it = Ok (dprefix keys k) /\ it_value s it = Ok (firstn vs v).
Proof. exact seek_stored. Qed.
Print Assumptions C36_seek_stored.

Definition sought (s : surf) (q : bytes) : res (bool * bool * bytes * bytes) :=
  ' (it, b) <- it_seek s (newIterator s) q ;;
  if it_valid it then k <- it_key it ;; v <- it_value s it ;; Ok (true, b, k, v) else Ok (false, b, [], []).
(** The keys of [it_keys] (dense and sparse levels, terminators in both), all found. *)
Example C36_example : exists s, built ex_fp 1 3 4 it_keys (mkvals (length it_keys)) 1000 s /\ ld_height (s_ld s) = 3 /\ ls_height (s_ls s) = 4 /\
  map (sought s) it_keys = map (fun e => Ok (true, true, dprefix it_keys (fst e), firstn 1 (snd e))) (combine it_keys (mkvals (length it_keys))).
Proof.
  assert (X : match surf_build ex_fp 8 (newBuilder 1 3 4) it_keys (mkvals (length it_keys)) 1000 with
    | Ok (s, _) => ld_height (s_ld s) = 3 /\ ls_height (s_ls s) = 4 /\
        map (sought s) it_keys = map (fun e => Ok (true, true, dprefix it_keys (fst e), firstn 1 (snd e))) (combine it_keys (mkvals (length it_keys)))
    | _ => False end) by (vm_compute; auto).
  build_with it_keys 3 4 1000%Z s E X. destruct X as (X1 & X2 & X3). exists s.
  split; [apply (built_small _ _ _ _ _ _ _ _ b); [reflexivity|exact E]|]. split; [exact X1|]. split; [exact X2|exact X3].
Qed.

(** ** C28. Seek as a lower bound. Partial ([seek_ok]): where [q] extends a stored key that is a
    proper prefix of another stored key and lies below the dense levels, some stored key has the
    next byte of [q], too, or there are two larger next bytes; and when real suffixes have more than 8 bits, [q] is stored or extends
    no distinguishing prefix. The stored pairs split into [below], all
    less than [q], and [rest], which is what Next then visits; only the first of [rest] can be
    less than [q], and then Seek reports it and the stored information cannot tell it from [q].
    Seek reports nothing else, except a key that begins with [q]. *)
Theorem C28_seek_partial : forall fp vs h r keys vals hint s, valid_input vs h r keys vals ->
  built fp vs h r keys vals hint s -> forall q it0, wf_bytes q = true -> iter_for s it0 -> seek_ok (ld_height (s_ld s)) r keys q ->
  exists it b below rest, it_seek s it0 q = Ok (it, b) /\ combine keys vals = below ++ rest /\
    Forall (fun e => blt (fst e) q) below /\ visits s (it_next s) it (map (shown vs keys) rest) /\
    match rest with
    | [] => it_valid it = false /\ b = false
    | e :: post => it_valid it = true /\ Forall (fun x => blt q (fst x)) post /\ (ble q (fst e) \/ (b = true /\ undecided r keys (fst e) q)) /\
        (b = true -> undecided r keys (fst e) q \/ is_prefix q (fst e))
    end.
Proof. exact seek_lower_bound. Qed.
Print Assumptions C28_seek_partial.

Definition free_keys : list bytes := [[1; 0; 5]; [1; 5; 5; 0; 9]; [1; 5; 5; 2; 7; 7]; [1; 5; 5; 2; 7; 8]; [2; 0; 1]; [2; 0; 3; 3; 3]; [2; 0; 3; 3; 4]; [2; 6]; [255; 255; 255]].
Lemma free_valid : valid_input 1 3 4 free_keys (mkvals (length free_keys)).
Proof. apply validb_input_ok. vm_compute. reflexivity. Qed.
Lemma free_free : prefix_free free_keys.
Proof.
  intros k k' H H' P. apply is_prefixb_iff in P.
  assert (X : forallb (fun a => forallb (fun b => negb (is_prefixb a b) || beqb a b) free_keys) free_keys = true) by (vm_compute; reflexivity).
  rewrite forallb_forall in X. specialize (X k H). rewrite forallb_forall in X. specialize (X k' H'). rewrite P in X. cbn [negb orb] in X. now apply beqb_eq.
Qed.
Lemma free_ok dense r q : r <= 8 -> seek_ok dense r free_keys q.
Proof. intros R. apply seek_ok_apart; [intros k I; exfalso; exact (prefix_free_inner _ _ free_free I)|now left]. Qed.
(** Queries before, between (undecided, decided by the suffix, in the sparse part) and after. *)
Example C28_example : exists s, built ex_fp 1 3 4 free_keys (mkvals (length free_keys)) 1000 s /\
  map (sought s) [[]; [1; 0; 80]; [1; 0; 5; 1]; [1; 5; 5; 2]; [1; 5; 5; 2; 7; 7; 16]; [1; 5; 5; 2; 7; 7; 1]; [2; 0; 2]; [2; 7]; [255; 255; 255; 255]; [255; 255; 0]] =
  [Ok (true, true, [1; 0], [0]); Ok (true, false, [1; 5; 5; 0], [1]); Ok (true, true, [1; 0], [0]); Ok (true, false, [1; 5; 5; 2; 7; 7], [2]);
   Ok (true, false, [1; 5; 5; 2; 7; 8], [3]); Ok (true, true, [1; 5; 5; 2; 7; 7], [2]); Ok (true, false, [2; 0; 3; 3; 3], [5]); Ok (true, false, [255], [8]); Ok (true, true, [255], [8]); Ok (true, true, [255], [8])].
Proof.
  assert (X : match surf_build ex_fp 8 (newBuilder 1 3 4) free_keys (mkvals (length free_keys)) 1000 with
    | Ok (s, _) => map (sought s) [[]; [1; 0; 80]; [1; 0; 5; 1]; [1; 5; 5; 2]; [1; 5; 5; 2; 7; 7; 16]; [1; 5; 5; 2; 7; 7; 1]; [2; 0; 2]; [2; 7]; [255; 255; 255; 255]; [255; 255; 0]] =
  [Ok (true, true, [1; 0], [0]); Ok (true, false, [1; 5; 5; 0], [1]); Ok (true, true, [1; 0], [0]); Ok (true, false, [1; 5; 5; 2; 7; 7], [2]);
   Ok (true, false, [1; 5; 5; 2; 7; 8], [3]); Ok (true, true, [1; 5; 5; 2; 7; 7], [2]); Ok (true, false, [2; 0; 3; 3; 3], [5]); Ok (true, false, [255], [8]); Ok (true, true, [255], [8]); Ok (true, true, [255], [8])]
    | _ => False end) by (vm_compute; auto).
  build_with free_keys 3 4 1000%Z s E X. exists s.
  split; [apply (built_small _ _ _ _ _ _ _ _ b); [reflexivity|exact E]|exact X].
Qed.

(** False without the restriction: with keys "a", "ac", "b", Seek("ab") goes to "b", past "ac". *)
Definition skip_keys : list bytes := [[97]; [97; 99]; [98]].
Theorem C28_seek_refuted : exists fp vs h r keys vals hint s q it b k, valid_input vs h r keys vals /\ built fp vs h r keys vals hint s /\ r <= 8 /\
  it_seek s (newIterator s) q = Ok (it, b) /\ it_valid it = true /\ In k keys /\ blt q k /\ In [98] keys /\ it_key it = Ok [98] /\ blt k [98].
Proof.
  assert (X : match surf_build ex_fp 8 (newBuilder 1 0 0) skip_keys (mkvals (length skip_keys)) 0 with
    | Ok (s, _) => match it_seek s (newIterator s) [97; 98] with Ok (it, _) => it_valid it = true /\ it_key it = Ok [98] | _ => False end
    | _ => False end) by (vm_compute; auto).
  build_with skip_keys 0 0 0%Z s E X. destruct (it_seek s (newIterator s) [97; 98]) as [[it b1]| |] eqn:F; [|destruct X|destruct X]. destruct X as [X1 X2].
  exists ex_fp, 1, 0, 0, skip_keys, (mkvals (length skip_keys)), 0%Z, s, [97; 98], it, b1, [97; 99].
  split; [apply validb_input_ok; vm_compute; reflexivity|]. split; [apply (built_small _ _ _ _ _ _ _ _ b); [reflexivity|exact E]|].
  split; [repeat constructor|]. split; [exact F|]. split; [exact X1|]. split; [right; left; reflexivity|]. split; [reflexivity|]. split; [right; right; left; reflexivity|]. split; [exact X2|reflexivity].
Qed.
Print Assumptions C28_seek_refuted.
(** ... and with keys "a", "ac" it is invalid although "ac" is greater. *)
Definition two_keys : list bytes := [[97]; [97; 99]].
Theorem C28_seek_invalid_refuted : exists fp vs h r keys vals hint s q it b k, valid_input vs h r keys vals /\ built fp vs h r keys vals hint s /\ r <= 8 /\
  it_seek s (newIterator s) q = Ok (it, b) /\ it_valid it = false /\ In k keys /\ blt q k.
Proof.
  assert (X : match surf_build ex_fp 8 (newBuilder 1 0 0) two_keys (mkvals (length two_keys)) 0 with
    | Ok (s, _) => match it_seek s (newIterator s) [97; 98] with Ok (it, _) => it_valid it = false | _ => False end
    | _ => False end) by (vm_compute; auto).
  build_with two_keys 0 0 0%Z s E X. destruct (it_seek s (newIterator s) [97; 98]) as [[it b1]| |] eqn:F; [|destruct X|destruct X].
  exists ex_fp, 1, 0, 0, two_keys, (mkvals (length two_keys)), 0%Z, s, [97; 98], it, b1, [97; 99].
  split; [apply validb_input_ok; vm_compute; reflexivity|]. split; [apply (built_small _ _ _ _ _ _ _ _ b); [reflexivity|exact E]|].
  split; [repeat constructor|]. split; [exact F|]. split; [exact X|]. split; [right; left; reflexivity|reflexivity].
Qed.
Print Assumptions C28_seek_invalid_refuted.

(** With stored keys that are prefixes of others and no dense level. *)
Definition inner_qs : list bytes := [[]; [0]; [1; 5]; [1; 5; 4; 4]; [1; 5; 5; 2; 7; 0]; [1; 5; 5; 2; 6]; [2]; [2; 0; 2]; [2; 0; 3; 3; 3; 0]; [2; 7]; [254; 3]; [255; 255]].
Lemma seek_okb_ok dense r keys q : r <= 8 ->
  forallb (fun k => forallb (fun k' => negb (is_prefixb k k') || beqb k k') keys || negb (is_prefixb k q) || existsb (fun k' => is_prefixb (firstn (S (length k)) q) k') keys) keys = true -> seek_ok dense r keys q.
Proof.
  intros R H. split; [|right; now left]. intros k (I & k' & I' & P & N) _ PQ. rewrite forallb_forall in H. specialize (H k I). apply is_prefixb_iff in P. apply is_prefixb_iff in PQ.
  rewrite PQ in H. cbn [negb] in H. rewrite orb_false_r in H. apply orb_true_iff in H as [H|H].
  - exfalso. rewrite forallb_forall in H. specialize (H k' I'). rewrite P in H. cbn [negb orb] in H. apply N. now apply beqb_eq.
  - left. apply existsb_exists in H as (k2 & I2 & P2). exists k2. split; auto. now apply is_prefixb_iff.
Qed.
Example C28_inner_example : Forall (seek_ok 0 4 it_keys) inner_qs /\ inner_key it_keys [1; 5; 5] /\
  exists s, built ex_fp 1 3 4 it_keys (mkvals (length it_keys)) 0 s /\ ld_height (s_ld s) = 0 /\ map (sought s) inner_qs =
    [Ok (true, false, [1], [0]); Ok (true, false, [1], [0]); Ok (true, false, [1; 5; 5], [1]); Ok (true, false, [1; 5; 5], [1]);
     Ok (true, false, [1; 5; 5; 2; 7; 7], [3]); Ok (true, false, [1; 5; 5; 2; 7; 7], [3]); Ok (true, false, [2; 0; 1], [5]);
     Ok (true, false, [2; 0; 3; 3; 3], [6]); Ok (true, true, [2; 0; 3; 3; 3], [6]); Ok (true, false, [255], [9]); Ok (true, false, [255], [9]);
     Ok (true, false, [255; 255], [10])].
Proof.
  split. { repeat (constructor; [apply seek_okb_ok; [repeat constructor|vm_compute; reflexivity]|]). constructor. }
  split. { split; [cbn; tauto|]. exists [1; 5; 5; 0; 9]. split; [cbn; tauto|]. split; [now exists [0; 9]|discriminate]. }
  assert (X : match surf_build ex_fp 8 (newBuilder 1 3 4) it_keys (mkvals (length it_keys)) 0 with
    | Ok (s, _) => ld_height (s_ld s) = 0 /\ map (sought s) inner_qs =
    [Ok (true, false, [1], [0]); Ok (true, false, [1], [0]); Ok (true, false, [1; 5; 5], [1]); Ok (true, false, [1; 5; 5], [1]);
     Ok (true, false, [1; 5; 5; 2; 7; 7], [3]); Ok (true, false, [1; 5; 5; 2; 7; 7], [3]); Ok (true, false, [2; 0; 1], [5]);
     Ok (true, false, [2; 0; 3; 3; 3], [6]); Ok (true, true, [2; 0; 3; 3; 3], [6]); Ok (true, false, [255], [9]); Ok (true, false, [255], [9]);
     Ok (true, false, [255; 255], [10])]
    | _ => False end) by (vm_compute; auto).
  build_with it_keys 3 4 0%Z s E X. destruct X as (X1 & X2). exists s.
  split; [apply (built_small _ _ _ _ _ _ _ _ b); [reflexivity|exact E]|]. split; [exact X1|exact X2].
Qed.

(** ** C29. HasOverlap. Partial: the range starts at a query covered by C28; with real suffixes of
    more than 8 bits, it ends at no extension of a distinguishing prefix. *)
Theorem C29_overlap_partial : forall fp vs h r keys vals hint s, valid_input vs h r keys vals ->
  built fp vs h r keys vals hint s -> forall start stop (includeEnd : bool) k, wf_bytes start = true -> wf_bytes stop = true ->
  seek_ok (ld_height (s_ld s)) r keys start -> suffix_ok r keys stop -> In k keys -> ble start k -> (if includeEnd then ble k stop else blt k stop) ->
  hasOverlap s start stop includeEnd = Ok true.
Proof. exact overlap_complete. Qed.
Print Assumptions C29_overlap_partial.
(** Ranges with and without a stored key. *)
Example C29_example : exists s, built ex_fp 1 3 4 free_keys (mkvals (length free_keys)) 1000 s /\
  map (fun p => hasOverlap s (fst p) (snd p) true) [([], [1]); ([], [1; 0; 5]); ([1; 5], [1; 5; 5; 0; 9]); ([2; 0; 2], [2; 0; 3; 3]); ([2; 0; 2], [2; 0; 3; 3; 3; 0]); ([2; 7], [3])] =
    [Ok false; Ok true; Ok true; Ok false; Ok true; Ok false] /\
  hasOverlap s [2; 0; 3; 3; 3] [2; 0; 3; 3; 3] false = Ok true.
Proof.
  assert (X : match surf_build ex_fp 8 (newBuilder 1 3 4) free_keys (mkvals (length free_keys)) 1000 with
    | Ok (s, _) => map (fun p => hasOverlap s (fst p) (snd p) true) [([], [1]); ([], [1; 0; 5]); ([1; 5], [1; 5; 5; 0; 9]); ([2; 0; 2], [2; 0; 3; 3]); ([2; 0; 2], [2; 0; 3; 3; 3; 0]); ([2; 7], [3])] =
    [Ok false; Ok true; Ok true; Ok false; Ok true; Ok false] /\ hasOverlap s [2; 0; 3; 3; 3] [2; 0; 3; 3; 3] false = Ok true
    | _ => False end) by (vm_compute; auto).
  build_with free_keys 3 4 1000%Z s E X. exists s.
  split; [apply (built_small _ _ _ _ _ _ _ _ b); [reflexivity|exact E]|exact X].
Qed.
(** False without the restriction: keys "a", "ac", "b" and the range from "ab" to "ac". *)
Theorem C29_overlap_refuted : exists fp vs h r keys vals hint s start stop k, valid_input vs h r keys vals /\ built fp vs h r keys vals hint s /\ r <= 8 /\
  In k keys /\ ble start k /\ ble k stop /\ hasOverlap s start stop true = Ok false.
Proof.
  assert (X : match surf_build ex_fp 8 (newBuilder 1 0 0) skip_keys (mkvals (length skip_keys)) 0 with
    | Ok (s, _) => hasOverlap s [97; 98] [97; 99] true = Ok false
    | _ => False end) by (vm_compute; auto).
  build_with skip_keys 0 0 0%Z s E X.
  exists ex_fp, 1, 0, 0, skip_keys, (mkvals (length skip_keys)), 0%Z, s, [97; 98], [97; 99], [97; 99].
  split; [apply validb_input_ok; vm_compute; reflexivity|]. split; [apply (built_small _ _ _ _ _ _ _ _ b); [reflexivity|exact E]|].
  split; [repeat constructor|]. split; [right; left; reflexivity|]. split; [apply blt_ble; reflexivity|]. split; [apply ble_refl|exact X].
Qed.
Print Assumptions C29_overlap_refuted.
