(** * C68: iterators and HasOverlap with the 32-bit counters of the code. *)
From Verif Require Import Base BitsModel VecModel SurfModel SurfIter SurfIterSpec SurfWord SurfWordIter SurfBuildTop SurfSpec SurfTop SurfSafeSpec SurfPrevSpec SurfWordSpec SurfWordIterSpec SurfWordIterTop SurfWordIterBig
  SurfTrie SurfEnc Props_Surf Props_Iter.

(** The models of the iterators and of HasOverlap used here keep every uint32 of the code modulo
    2^32, in their positions, ranks, offsets and levels.  With fewer than 2^23 keys, each shorter
    than 2^16 - 1 bytes, and fewer than 2^32 bytes of values, whatever a sequence of calls shows
    with unbounded counters (Valid, Key, Value and the result of Seek after every call) it shows
    with those of the code. *)
Theorem C68_iterators_same : forall fp vs h r keys vals hint s, valid_input vs h r keys vals -> small_input vs keys ->
  built32 fp vs h r keys vals hint s -> forall cs out, queries_ok cs ->
  trace s (newIterator s) cs = Ok out -> trace32 s (newIterator32 s) cs = Ok out.
Proof. exact trace32_same. Qed.
Print Assumptions C68_iterators_same.

(** So no call panics or loops, on an iterator that is used as C53 asks, unless all the stored
    keys start with one of them. *)
Theorem C68_calls_return : forall fp vs h r keys vals hint s, valid_input vs h r keys vals -> small_input vs keys ->
  built32 fp vs h r keys vals hint s -> forall cs, allowed (ld_height (s_ld s)) true cs -> queries_ok cs ->
  (ld_height (s_ld s) = 0 \/ ~ prefix_of_all keys) -> exists out, trace32 s (newIterator32 s) cs = Ok out.
Proof. exact calls32_return. Qed.
Print Assumptions C68_calls_return.

(** From SeekToFirst on, Next visits the stored keys in order, each with its value (as in C46). *)
Theorem C68_forward : forall fp vs h r keys vals hint s, valid_input vs h r keys vals -> small_input vs keys ->
  built32 fp vs h r keys vals hint s -> 0 < ld_height (s_ld s) ->
  exists it, it_seekToFirst32 s (newIterator32 s) = Ok it /\
    ((prefix_of_all keys /\ visits32 s (it_next32 s) it (map (shown vs keys) (tl (combine keys vals)))) \/
     (~ prefix_of_all keys /\ visits32 s (it_next32 s) it (map (shown vs keys) (combine keys vals)))).
Proof. exact forward32. Qed.
Print Assumptions C68_forward.

(** From SeekToLast on, Prev visits them in reverse, down to the first one it does not step past. *)
Theorem C68_backward : forall fp vs h r keys vals hint s, valid_input vs h r keys vals -> small_input vs keys ->
  built32 fp vs h r keys vals hint s -> 0 < ld_height (s_ld s) ->
  exists it m, it_seekToLast32 s (newIterator32 s) = Ok it /\ m < length keys /\ prev_stops (ld_height (s_ld s)) keys m /\
    (forall i, m < i -> i < length keys -> ~ prev_stops (ld_height (s_ld s)) keys i) /\
    visits32 s (it_prev32 s) it (map (shown vs keys) (rev (skipn m (combine keys vals)))).
Proof. exact backward32. Qed.
Print Assumptions C68_backward.

(** HasOverlap answers what it answers with unbounded counters, and panics where that does. *)
Theorem C68_overlap_same : forall fp vs h r keys vals hint s, valid_input vs h r keys vals -> small_input vs keys ->
  built32 fp vs h r keys vals hint s -> forall start stop b, query_ok start -> (N.of_nat (length stop) < 536870912)%N ->
  hasOverlap32 s start stop b = hasOverlap s start stop b.
Proof. exact overlap32_same. Qed.
Print Assumptions C68_overlap_same.

(** It answers true for a range that has a stored key (under the conditions of C29). *)
Theorem C68_overlap : forall fp vs h r keys vals hint s, valid_input vs h r keys vals -> small_input vs keys ->
  built32 fp vs h r keys vals hint s -> forall start stop (includeEnd : bool) k, query_ok start -> query_ok stop ->
  seek_ok (ld_height (s_ld s)) r keys start -> suffix_ok r keys stop -> In k keys -> ble start k -> (if includeEnd then ble k stop else blt k stop) ->
  hasOverlap32 s start stop includeEnd = Ok true.
Proof. exact overlap32_complete. Qed.
Print Assumptions C68_overlap.

(** Without the bound on the values an iterator shows a wrong value: three keys with values of
    2^31 bytes; Seek of the third one finds it, and Value returns the value of the first. *)
Theorem C68_value_beyond_4GiB_refuted : exists fp vs keys vals s k v w, valid_input vs 0 0 keys vals /\ built32 fp vs 0 0 keys vals 0 s /\
  In (k, v) (combine keys vals) /\ length v = vs /\ trace32 s (newIterator32 s) [ISeek k] = Ok [(true, Some (k, w))] /\ w <> v.
Proof. exact big_iter_wrong. Qed.
Print Assumptions C68_value_beyond_4GiB_refuted.

(** The hypotheses hold of the keys of Props_Iter. *)
Example C68_example : valid_input 1 3 4 it_keys (mkvals (length it_keys)) /\ small_input 1 it_keys /\ queries_ok [ISeek [1; 5; 5]; INext; ISeek [200]; IPrev].
Proof. split; [exact it_valid_input|]. split; [constructor; repeat constructor|]. repeat constructor. Qed.
(** What is shown with three dense levels and sparse ones below them, and with sparse ones alone. *)
Definition word_calls : list icall := [ISeek [1; 5; 5]; INext; INext; IPrev; ISeek [2; 0; 3]; IPrev; INext; INext; ISeek [255; 255; 255]; INext].
Definition word_run (hint : Z) : res (nat * list (bool * option (bytes * bytes))) :=
  s <- surf_build32 ex_fp 8 (newBuilder 1 3 4) it_keys (mkvals (length it_keys)) hint ;;
  l <- trace32 s (newIterator32 s) word_calls ;; Ok (ld_height (s_ld s), l).
Example C68_example_runs : word_run 1000 = Ok (3, [(true, Some ([1; 5; 5], [1])); (false, Some ([1; 5; 5; 0], [2])); (false, Some ([1; 5; 5; 2; 7; 7], [3])); (false, Some ([1; 5; 5; 0], [2]));
    (false, Some ([2; 0; 3; 3; 3], [6])); (false, Some ([2; 0; 1], [5])); (false, Some ([2; 0; 3; 3; 3], [6])); (false, Some ([2; 0; 3; 3; 4], [7]));
    (true, Some ([255; 255], [10])); (false, None)]) /\
  word_run 0 = Ok (0, [(false, Some ([1; 5; 5], [1])); (false, Some ([1; 5; 5; 0], [2])); (false, Some ([1; 5; 5; 2; 7; 7], [3])); (false, Some ([1; 5; 5; 0], [2]));
    (false, Some ([2; 0; 3; 3; 3], [6])); (false, Some ([2; 0; 1], [5])); (false, Some ([2; 0; 3; 3; 3], [6])); (false, Some ([2; 0; 3; 3; 4], [7]));
    (true, Some ([255; 255], [10])); (false, None)]).
Proof. split; vm_compute; reflexivity. Qed.
(** The value that C68_value_beyond_4GiB_refuted reads: an offset of 2 * 2^31 is 0. *)
Example C68_example_wrap : forall vs, N.of_nat vs = 2147483648%N -> mul32 2 vs = 0.
Proof. intros vs B. unfold mul32, w32, two32. replace (N.of_nat (2 * vs)) with 4294967296%N by lia. reflexivity. Qed.
