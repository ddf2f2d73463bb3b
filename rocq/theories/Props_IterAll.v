(** * Exactly what iteration visits, and exactly where every call moves the iterator:
    properties C46, C47. *)
From Verif Require Import Base BitsModel VecModel SurfModel SurfTrie SurfEnc SurfSuffix SurfBuildTop SurfSpec SurfTop SurfSuffix2 SurfSuffix3 SurfIter SurfIterSpec SurfIterMain SurfPrevSpec SurfIterPrev3 SurfIterZero Props_Surf Props_Iter Props_Cursor.

(** ** C46. The keys visited, for every filter. Without dense levels: none. *)
Theorem C46_sparse_only : forall fp vs h r keys vals hint s it0, valid_input vs h r keys vals -> built fp vs h r keys vals hint s ->
  iter_for s it0 -> ld_height (s_ld s) = 0 ->
  (exists it, it_seekToFirst s it0 = Ok it /\ it_valid it = false) /\ (exists it, it_seekToLast s it0 = Ok it /\ it_valid it = false).
Proof. exact seek_zero. Qed.
Print Assumptions C46_sparse_only.

(** Forward: all keys, except one that is a prefix of all the others. *)
Theorem C46_forward : forall fp vs h r keys vals hint s, valid_input vs h r keys vals -> built fp vs h r keys vals hint s ->
  forall it0, iter_for s it0 -> 0 < ld_height (s_ld s) ->
  exists it, it_seekToFirst s it0 = Ok it /\
    ((prefix_of_all keys /\ visits s (it_next s) it (map (shown vs keys) (tl (combine keys vals)))) \/
     (~ prefix_of_all keys /\ visits s (it_next s) it (map (shown vs keys) (combine keys vals)))).
Proof. exact forward_all. Qed.
Print Assumptions C46_forward.

(** Backward: the keys from the greatest index at which Prev ends the iteration. *)
Theorem C46_backward : forall fp vs h r keys vals hint s, valid_input vs h r keys vals -> built fp vs h r keys vals hint s ->
  forall it0, iter_for s it0 -> 0 < ld_height (s_ld s) ->
  exists it m, it_seekToLast s it0 = Ok it /\ m < length keys /\ prev_stops (ld_height (s_ld s)) keys m /\
    (forall i, m < i -> i < length keys -> ~ prev_stops (ld_height (s_ld s)) keys i) /\
    visits s (it_prev s) it (map (shown vs keys) (rev (skipn m (combine keys vals)))).
Proof. exact backward_all. Qed.
Print Assumptions C46_backward.

(** A key that is a prefix of all others: left out in both directions. *)
Example C46_example_prefix : exists s, built ex_fp 1 0 0 pre_keys (mkvals (length pre_keys)) 1000 s /\ ld_height (s_ld s) = 1 /\
  (it <- it_seekToFirst s (newIterator s) ;; walk s (it_next s) 9 it) = Ok [([7; 5], [1]); ([7; 6; 1], [2]); ([7; 6; 2], [3])] /\
  (it <- it_seekToLast s (newIterator s) ;; walk s (it_prev s) 9 it) = Ok [([7; 6; 2], [3]); ([7; 6; 1], [2]); ([7; 5], [1])].
Proof.
  assert (X : match surf_build ex_fp 8 (newBuilder 1 0 0) pre_keys (mkvals (length pre_keys)) 1000 with
    | Ok (s, _) => ld_height (s_ld s) = 1 /\
       (it <- it_seekToFirst s (newIterator s) ;; walk s (it_next s) 9 it) = Ok [([7; 5], [1]); ([7; 6; 1], [2]); ([7; 6; 2], [3])] /\
       (it <- it_seekToLast s (newIterator s) ;; walk s (it_prev s) 9 it) = Ok [([7; 6; 2], [3]); ([7; 6; 1], [2]); ([7; 5], [1])]
    | _ => False end) by (vm_compute; auto).
  build_with pre_keys 0 0 1000%Z s E X. exists s. split; [apply (built_small _ _ _ _ _ _ _ _ b); [reflexivity|exact E]|exact X].
Qed.
(** The last clause of [prev_stops]: two dense levels, [7] and [7; 0] both left out backwards. *)
Definition chain_keys : list bytes := [[7]; [7; 0]; [7; 0; 5]; [7; 0; 6; 1]; [7; 0; 6; 2]].
Example C46_example_chain : exists s, built ex_fp 1 0 0 chain_keys (mkvals (length chain_keys)) 1000 s /\ ld_height (s_ld s) = 2 /\
  (it <- it_seekToFirst s (newIterator s) ;; walk s (it_next s) 9 it) = Ok [([7; 0], [1]); ([7; 0; 5], [2]); ([7; 0; 6; 1], [3]); ([7; 0; 6; 2], [4])] /\
  (it <- it_seekToLast s (newIterator s) ;; walk s (it_prev s) 9 it) = Ok [([7; 0; 6; 2], [4]); ([7; 0; 6; 1], [3]); ([7; 0; 5], [2])].
Proof.
  assert (X : match surf_build ex_fp 8 (newBuilder 1 0 0) chain_keys (mkvals (length chain_keys)) 1000 with
    | Ok (s, _) => ld_height (s_ld s) = 2 /\
       (it <- it_seekToFirst s (newIterator s) ;; walk s (it_next s) 9 it) = Ok [([7; 0], [1]); ([7; 0; 5], [2]); ([7; 0; 6; 1], [3]); ([7; 0; 6; 2], [4])] /\
       (it <- it_seekToLast s (newIterator s) ;; walk s (it_prev s) 9 it) = Ok [([7; 0; 6; 2], [4]); ([7; 0; 6; 1], [3]); ([7; 0; 5], [2])]
    | _ => False end) by (vm_compute; auto).
  build_with chain_keys 0 0 1000%Z s E X. exists s. split; [apply (built_small _ _ _ _ _ _ _ _ b); [reflexivity|exact E]|exact X].
Qed.

(** When iteration is complete. *)
Theorem C46_forward_complete : forall fp vs h r keys vals hint s it0 it, valid_input vs h r keys vals -> built fp vs h r keys vals hint s ->
  iter_for s it0 -> it_seekToFirst s it0 = Ok it ->
  (visits s (it_next s) it (map (shown vs keys) (combine keys vals)) <-> 0 < ld_height (s_ld s) /\ ~ prefix_of_all keys).
Proof. exact forward_complete. Qed.
Print Assumptions C46_forward_complete.
Theorem C46_backward_complete : forall fp vs h r keys vals hint s it0 it, valid_input vs h r keys vals -> built fp vs h r keys vals hint s ->
  iter_for s it0 -> it_seekToLast s it0 = Ok it ->
  (visits s (it_prev s) it (map (shown vs keys) (rev (combine keys vals))) <->
   0 < ld_height (s_ld s) /\ forall i, 0 < i -> i < length keys -> ~ prev_stops (ld_height (s_ld s)) keys i).
Proof. exact backward_complete. Qed.
Print Assumptions C46_backward_complete.

(** ** C47. Every call sequence: after each call the iterator is where the cursor of
    [moved_all] is, and a call panics exactly when it is a Prev at index 0, with a dense level,
    of a key that is a prefix of all. The calls covered are Seek as in C28, and SeekToFirst and
    SeekToLast with a dense level. *)
Theorem C47_cursor : forall fp vs h r keys vals hint s, valid_input vs h r keys vals -> built fp vs h r keys vals hint s ->
  forall cs, Forall (call_ok_all (ld_height (s_ld s)) keys) cs -> follows_all vs r keys vals s (newIterator s) None cs.
Proof. exact cursor_all. Qed.
Print Assumptions C47_cursor.
(** In particular no call panics when there is no dense level or no key that is a prefix of all. *)
Theorem C47_no_panic : forall fp vs h r keys vals hint s, valid_input vs h r keys vals -> built fp vs h r keys vals hint s ->
  (ld_height (s_ld s) = 0 \/ ~ prefix_of_all keys) ->
  forall cs, Forall (call_ok_all (ld_height (s_ld s)) keys) cs -> completes s (newIterator s) cs.
Proof. exact no_call_panics. Qed.
Print Assumptions C47_no_panic.

(** SeekToFirst to [7; 5], Prev ends there; back from the end; and Prev at [7] panics. *)
Definition all_calls : list icall := [IFirst; IPrev; INext; ILast; IPrev; IPrev; IPrev; IPrev; ISeek [7; 6; 1]; IPrev; INext; ISeek [7]].
Lemma all_calls_ok d : 0 < d -> Forall (call_ok_all d pre_keys) (all_calls ++ [IPrev]).
Proof.
  assert (SK : forall q, wf_bytes q = true -> In q pre_keys -> call_ok_all d pre_keys (ISeek q)).
  { intros q Wq I. split; [exact Wq|]. intros k _ _ _. left; exists q. split; [exact I|]. exists (skipn (S (length k)) q). symmetry. apply firstn_skipn. }
  intros D. unfold all_calls. cbn [app]. repeat (constructor; [first [exact Logic.I|exact D|apply SK; [reflexivity|cbn; tauto]]|]). constructor.
Qed.
Example C47_example : exists s, built ex_fp 1 3 4 pre_keys (mkvals (length pre_keys)) 1000 s /\ ld_height (s_ld s) = 1 /\
  Forall (call_ok_all (ld_height (s_ld s)) pre_keys) (all_calls ++ [IPrev]) /\
  traced s (newIterator s) all_calls = Ok
   [Some [7; 5]; None; None; Some [7; 6; 2]; Some [7; 6; 1]; Some [7; 5]; None; None; Some [7; 6; 1]; Some [7; 5]; Some [7; 6; 1]; Some [7]] /\
  traced s (newIterator s) (all_calls ++ [IPrev]) = Panic.
Proof.
  assert (X : match surf_build ex_fp 8 (newBuilder 1 3 4) pre_keys (mkvals (length pre_keys)) 1000 with
    | Ok (s, _) => ld_height (s_ld s) = 1 /\ traced s (newIterator s) all_calls = Ok
   [Some [7; 5]; None; None; Some [7; 6; 2]; Some [7; 6; 1]; Some [7; 5]; None; None; Some [7; 6; 1]; Some [7; 5]; Some [7; 6; 1]; Some [7]] /\
      traced s (newIterator s) (all_calls ++ [IPrev]) = Panic
    | _ => False end) by (vm_compute; auto).
  build_with pre_keys 3 4 1000%Z s E X. destruct X as (X1 & X2). exists s.
  split; [apply (built_small _ _ _ _ _ _ _ _ b); [reflexivity|exact E]|]. split; [exact X1|]. split; [|exact X2].
  apply all_calls_ok. rewrite X1. repeat constructor.
Qed.
