(** * Exactly where Seek goes and what HasOverlap answers, for suffixes of any length: properties
    C50, C51; and for C35, C28, C29 what happens with suffixes of more than 8 bits. *)
From Verif Require Import Base BitsModel VecModel SurfModel SurfTrie SurfEnc SurfSuffix SurfBuildTop SurfSpec SurfTop SurfSuffix2 SurfSuffix3 SurfGetSpec SurfIter SurfIterSpec SurfIterMain SurfIterSeek3 SurfSeekAll Props_Surf Props_Iter Props_Seek.

(** ** C50. Seek. The stored pairs split into those the filter takes to be less than [q]
    ([passedb], a condition on the keys alone) and the rest, which Next then visits. The flag is
    true where the kept bits of the first of the rest do not tell it from [q]; elsewhere it is true
    if [q] ends just where the stored keys branch within the dense levels, and then the key begins
    with [q]. *)
Theorem C50_seek_exact : forall fp vs h r keys vals hint s, valid_input vs h r keys vals -> built fp vs h r keys vals hint s ->
  forall q it0, wf_bytes q = true -> iter_for s it0 -> path_ok (ld_height (s_ld s)) keys q ->
  exists it b below rest, it_seek s it0 q = Ok (it, b) /\ combine keys vals = below ++ rest /\
    Forall (fun e => passedb r keys q (fst e) = true) below /\ Forall (fun e => passedb r keys q (fst e) = false) rest /\
    visits s (it_next s) it (map (shown vs keys) rest) /\
    match rest with
    | [] => it_valid it = false /\ b = false
    | e :: post => it_valid it = true /\ Forall (fun x => nearb keys (fst x) q = false /\ blt q (fst x)) post /\
        if nearb keys (fst e) q then verdict r (length (dprefix keys (fst e))) (fst e) q = (if b then Eq else Gt)
        else ble q (fst e) /\ b = stubb (ld_height (s_ld s)) keys q /\ (b = true -> is_prefix q (fst e))
    end.
Proof. exact seek_exact. Qed.
Print Assumptions C50_seek_exact.
(** [path_ok] holds of every query when no stored key is a prefix of another. *)
Theorem C50_every_query : forall dense keys q, prefix_free keys -> path_ok dense keys q.
Proof. exact free_path. Qed.
Print Assumptions C50_every_query.

Lemma path_okb_ok dense keys q :
  forallb (fun k => negb (continuedb keys k) || Nat.ltb (levels_above keys k) dense || negb (is_prefixb k q) || existsb (fun k' => is_prefixb (firstn (S (length k)) q) k') keys) keys = true ->
  path_ok dense keys q.
Proof.
  intros H k (I & k' & I' & P & N) D PQ. rewrite forallb_forall in H. specialize (H k I). apply is_prefixb_iff in PQ. rewrite PQ in H.
  assert (C : continuedb keys k = true).
  { apply existsb_exists. exists k'. split; [exact I'|]. apply andb_true_iff. split; [now apply is_prefixb_iff|]. apply negb_true_iff. destruct (beqb k' k) eqn:E; [|reflexivity]. apply beqb_eq in E. congruence. }
  rewrite C in H. apply Nat.ltb_ge in D. rewrite D in H. cbn [negb orb] in H. apply existsb_exists in H as (k2 & I2 & P2). left. exists k2. split; [exact I2|]. now apply is_prefixb_iff.
Qed.

(** Real suffixes of 16 bits and three dense levels: queries that leave the stored prefixes [1] and
    [255] by an absent byte, that meet the kept bits of a long key (before, equal, after), and that
    extend a key whose rest is too short to have any. *)
Definition long_qs : list bytes := [[]; [1; 4]; [1; 6]; [1; 5; 5]; [255; 3]; [255; 255; 254; 255]; [255; 255; 255; 255]; [2; 0; 1]; [2; 0; 1; 7; 7]; [2; 0; 3; 3; 3; 0]; [3]].
Definition long_out : list (res (bool * bool * bytes * bytes)) :=
  [Ok (true, true, [1], [0]); Ok (true, false, [1; 5; 5], [1]); Ok (true, false, [2; 0; 1], [5]); Ok (true, true, [1; 5; 5], [1]);
   Ok (true, false, [255; 255], [10]); Ok (false, false, [], []); Ok (false, false, [], []); Ok (true, true, [2; 0; 1], [5]);
   Ok (true, false, [2; 0; 3; 3; 3], [6]); Ok (true, true, [2; 0; 3; 3; 3], [6]); Ok (true, false, [255], [9])].
Example C50_example : Forall (path_ok 3 it_keys) long_qs /\
  exists s, built ex_fp 1 3 16 it_keys (mkvals (length it_keys)) 1000 s /\ ld_height (s_ld s) = 3 /\ map (sought s) long_qs = long_out.
Proof.
  split. { unfold long_qs. repeat (constructor; [apply path_okb_ok; vm_compute; reflexivity|]). constructor. }
  assert (X : match surf_build ex_fp 8 (newBuilder 1 3 16) it_keys (mkvals (length it_keys)) 1000 with
    | Ok (s, _) => ld_height (s_ld s) = 3 /\ map (sought s) long_qs = long_out
    | _ => False end) by (vm_compute; auto).
  build_with it_keys 3 16 1000%Z s E X. destruct X as (X1 & X2). exists s.
  split; [apply (built_small _ _ _ _ _ _ _ _ b); [reflexivity|exact E]|]. split; [exact X1|exact X2].
Qed.

(** Without dense levels: [97; 98] leaves the stored prefix [97] by an absent byte, two larger ones
    being present. *)
Definition wide_keys : list bytes := [[97]; [97; 99]; [97; 100]; [98]].
Example C50_wide_example : path_ok 0 wide_keys [97; 98] /\ inner_key wide_keys [97] /\
  exists s, built ex_fp 1 0 0 wide_keys (mkvals (length wide_keys)) 0 s /\ ld_height (s_ld s) = 0 /\ sought s [97; 98] = Ok (true, false, [97; 99], [1]).
Proof.
  split. { intros k (I & k' & I' & P & N) _ PQ. right. assert (k = [97]) as ->. { cbn [wide_keys In] in I. destruct I as [<-|[<-|[<-|[<-|[]]]]]; auto; destruct PQ as (z & PQ); discriminate. }
    exists [97; 99], [97; 100]. split; [cbn; auto|]. split; [cbn; auto|]. split; [now exists [99]|]. split; [now exists [100]|]. vm_compute. split; repeat constructor. }
  split. { split; [now left|]. exists [97; 99]. split; [cbn; auto|]. split; [now exists [99]|discriminate]. }
  assert (X : match surf_build ex_fp 8 (newBuilder 1 0 0) wide_keys (mkvals (length wide_keys)) 0 with
    | Ok (s, _) => ld_height (s_ld s) = 0 /\ sought s [97; 98] = Ok (true, false, [97; 99], [1])
    | _ => False end) by (vm_compute; auto).
  build_with wide_keys 0 0 0%Z s E X. destruct X as (X1 & X2). exists s.
  split; [apply (built_small _ _ _ _ _ _ _ _ b); [reflexivity|exact E]|]. split; [exact X1|exact X2].
Qed.

(** ** C51. HasOverlap. *)
Theorem C51_overlap_exact : forall fp vs h r keys vals hint s, valid_input vs h r keys vals -> built fp vs h r keys vals hint s ->
  forall start stop (includeEnd : bool), wf_bytes start = true -> wf_bytes stop = true -> path_ok (ld_height (s_ld s)) keys start ->
  hasOverlap s start stop includeEnd = Ok (overlap_answer r (ld_height (s_ld s)) keys start stop includeEnd).
Proof. exact overlap_exact. Qed.
Print Assumptions C51_overlap_exact.

Definition ranges : list (bytes * bytes) :=
  [([], [1]); ([1; 0], [1; 5]); ([1; 5; 5; 1], [1; 5; 5; 2; 7]); ([1; 5; 5; 1], [1; 5; 5; 2; 7; 7]); ([2; 0; 2], [2; 0; 3; 3; 3]); ([2; 0; 2], [2; 0; 3; 3]); ([255], [255]); ([255; 3], [255; 255; 255]); ([255; 3], [255; 255; 254; 255])].
Example C51_example : Forall (path_ok 3 it_keys) (map fst ranges) /\
  exists s, built ex_fp 1 3 16 it_keys (mkvals (length it_keys)) 1000 s /\ ld_height (s_ld s) = 3 /\
    map (fun p => hasOverlap s (fst p) (snd p) true) ranges = [Ok true; Ok false; Ok false; Ok true; Ok true; Ok false; Ok true; Ok true; Ok true] /\
    map (fun p => hasOverlap s (fst p) (snd p) false) ranges = [Ok false; Ok false; Ok false; Ok true; Ok true; Ok false; Ok false; Ok true; Ok true].
Proof.
  split. { cbn [map ranges fst]. repeat (constructor; [apply path_okb_ok; vm_compute; reflexivity|]). constructor. }
  assert (X : match surf_build ex_fp 8 (newBuilder 1 3 16) it_keys (mkvals (length it_keys)) 1000 with
    | Ok (s, _) => ld_height (s_ld s) = 3 /\
    map (fun p => hasOverlap s (fst p) (snd p) true) ranges = [Ok true; Ok false; Ok false; Ok true; Ok true; Ok false; Ok true; Ok true; Ok true] /\
    map (fun p => hasOverlap s (fst p) (snd p) false) ranges = [Ok false; Ok false; Ok false; Ok true; Ok true; Ok false; Ok false; Ok true; Ok true]
    | _ => False end) by (vm_compute; auto).
  build_with it_keys 3 16 1000%Z s E X. destruct X as (X1 & X2 & X3). exists s.
  split; [apply (built_small _ _ _ _ _ _ _ _ b); [reflexivity|exact E]|]. split; [exact X1|]. split; [exact X2|exact X3].
Qed.

(** ** C35, for every suffix length: Compare orders the kept parts. *)
Theorem C35_compare_exact : forall fp c, cfg_ok c -> c_type c <> NoneSuffix -> forall groups,
  Forall (fun p => wf_bytes (fst p) = true) (concat groups) ->
  exists lvs v, Forall2 (fun g lv => insert_suffixes fp c g emptyLevel = Ok lv) groups lvs /\
    suffixVector_init (c_type c) (c_hashLen c) (c_realLen c) (map lv_suffixes lvs) (map (fun lv => lv_suffixCount lv * c_suffixLen c) lvs) = Ok v /\
    forall i k d q L, nth_error (concat groups) i = Some (k, d) -> wf_bytes q = true ->
      suffix_compare v q i L =
        Ok match part_compare (real_or_zero (d + 1) (c_realLen c) k) (real_or_zero L (c_realLen c) q) with
           | Lt => (-1)%Z | Eq => couldBePositive | Gt => 1%Z end.
Proof. exact compare_exact. Qed.
Print Assumptions C35_compare_exact.
(** A 17-bit suffix of one key; the second query is less than the key in its third byte only, which
    is not kept. *)
Example C35_exact_example : match insert_suffixes ex_fp (mkcfg 1 3 17) [([1; 5; 9; 0], 0)] emptyLevel with
  | Ok lv => match suffixVector_init MixedSuffix 3 17 [lv_suffixes lv] [lv_suffixCount lv * 20] with
             | Ok v => map (fun q => suffix_compare v q 0 1) [[1; 4; 9; 0]; [1; 5; 8; 128]; [1; 5; 9; 9]; [1; 6]] = [Ok 1%Z; Ok (-1)%Z; Ok couldBePositive; Ok 1%Z]
             | _ => False end
  | _ => False end.
Proof. vm_compute. reflexivity. Qed.
(** ... so that for every length above 8 bits some key greater than the query is reported less. *)
Theorem C35_compare_long_refuted : forall fp c, cfg_ok c -> 9 <= c_realLen c -> exists k q lv v,
  wf_bytes k = true /\ wf_bytes q = true /\ firstn 1 k = firstn 1 q /\ blt q k /\ insert_suffixes fp c [(k, 0)] emptyLevel = Ok lv /\
  suffixVector_init (c_type c) (c_hashLen c) (c_realLen c) [lv_suffixes lv] [lv_suffixCount lv * c_suffixLen c] = Ok v /\
  suffix_compare v q 0 1 = Ok (-1)%Z.
Proof. exact compare_long. Qed.
Print Assumptions C35_compare_long_refuted.

(** ** C28, C29: for every suffix length above 8 bits and every dense-levels hint, Seek passes a
    stored key that is not less than the query, ... *)
Theorem C28_seek_long_refuted : forall fp h r hint, 9 <= r -> h + r <= 64 ->
  exists vs keys vals s q k k', valid_input vs h r keys vals /\ built fp vs h r keys vals hint s /\ prefix_free keys /\ wf_bytes q = true /\
    In k keys /\ In k' keys /\ blt q k /\ blt k k' /\
    forall it0, iter_for s it0 -> exists it b, it_seek s it0 q = Ok (it, b) /\ it_valid it = true /\ it_key it = Ok k'.
Proof.
  intros fp h r hint R HR. destruct (C22_build_returns_partial fp 1 h r short_keys short_vals hint (short_valid h r HR)) as (s & B).
  exists 1, short_keys, short_vals, s, long_query, [1; 200], [2]. split; [exact (short_valid h r HR)|]. split; [exact B|]. split; [exact short_free|].
  split; [reflexivity|]. split; [left; reflexivity|]. split; [right; left; reflexivity|]. split; [reflexivity|]. split; [reflexivity|].
  intros it0 IF. destruct (seek_long fp h r hint s R HR B it0 IF) as (it & b & E & Vd & K & _). exists it, b. auto.
Qed.
Print Assumptions C28_seek_long_refuted.
(** ... and HasOverlap denies a range with a stored key in it. *)
Theorem C29_overlap_long_refuted : forall fp h r hint, 9 <= r -> h + r <= 64 ->
  exists vs keys vals s start stop k, valid_input vs h r keys vals /\ built fp vs h r keys vals hint s /\ prefix_free keys /\ wf_bytes start = true /\ wf_bytes stop = true /\
    In k keys /\ blt start k /\ blt k stop /\ hasOverlap s start stop true = Ok false.
Proof.
  intros fp h r hint R HR. destruct (C22_build_returns_partial fp 1 h r short_keys short_vals hint (short_valid h r HR)) as (s & B).
  exists 1, short_keys, short_vals, s, long_query, [1; 255], [1; 200]. split; [exact (short_valid h r HR)|]. split; [exact B|]. split; [exact short_free|].
  split; [reflexivity|]. split; [reflexivity|]. split; [left; reflexivity|]. split; [reflexivity|]. split; [reflexivity|].
  exact (overlap_long fp h r hint s R HR B).
Qed.
Print Assumptions C29_overlap_long_refuted.
