(** * Iterator calls in any order, with any queries: property C48. *)
From Verif Require Import Base BitsModel VecModel SurfModel SurfTrie SurfEnc SurfSuffix SurfBuildTop SurfSpec SurfTop SurfSuffix2 SurfSuffix3 SurfIter SurfIterSpec SurfIterMain SurfSafeSpec SurfSafe3 Props_Surf Props_Iter Props_Cursor.

(** ** C48. Any queries, any suffix configuration, any sequence of calls: every call returns,
    and Key and Value return while the iterator is valid, except that Prev panics, with a dense
    level, on a key that is a prefix of all others. *)
Theorem C48_calls_return : forall fp vs h r keys vals hint s, valid_input vs h r keys vals -> built fp vs h r keys vals hint s ->
  forall cs, allowed (ld_height (s_ld s)) true cs -> returns s keys (newIterator s) cs.
Proof. exact calls_return. Qed.
Print Assumptions C48_calls_return.

(** HasOverlap returns for any two bounds. *)
Theorem C48_overlap_returns : forall fp vs h r keys vals hint s, valid_input vs h r keys vals -> built fp vs h r keys vals hint s ->
  forall start stop ie, wf_bytes start = true -> exists b, hasOverlap s start stop ie = Ok b.
Proof. exact overlap_total. Qed.
Print Assumptions C48_overlap_returns.

(** Queries that run out of the trie at stored prefix keys, suffixes of 20 bits (outside C28),
    with and without dense levels; without them Key shows [97; 9], the beginning of no key. *)
Definition odd_keys : list bytes := [[97]; [97; 99]; [97; 99; 1]; [98; 7; 7; 7]; [98; 9]; [99; 1; 2; 3; 4; 5; 6]].
Definition odd_calls : list icall :=
  [ISeek [97; 98]; IPrev; INext; INext; ISeek [98; 7; 7; 6]; INext; ISeek [97; 99; 0]; IPrev; INext; IPrev; ISeek [99; 9]; IPrev; ISeek []; INext;
   ISeek [99; 1; 2; 3; 4]; IPrev; IFirst; ISeek [98]; IPrev; IPrev; IPrev].
Lemma odd_allowed d : allowed d true odd_calls.
Proof. unfold odd_calls. cbn [allowed]. repeat (split; [reflexivity|]). exact Logic.I. Qed.
Example C48_example_dense : exists s, built ex_fp 1 0 20 odd_keys (mkvals (length odd_keys)) 1000 s /\ ld_height (s_ld s) = 2 /\
  allowed (ld_height (s_ld s)) true odd_calls /\ traced s (newIterator s) odd_calls = Ok
  [Some [97; 99]; Some [97]; Some [97; 99]; Some [97; 99; 1]; Some [98; 7]; Some [98; 9]; Some [98; 7]; Some [97; 99; 1]; Some [98; 7]; Some [97; 99; 1]; Some [99]; Some [98; 9]; Some [97]; Some [97; 99]; Some [99]; Some [98; 9]; Some [97]; Some [98; 7]; Some [97; 99; 1]; Some [97; 99]; Some [97]].
Proof.
  assert (X : match surf_build ex_fp 8 (newBuilder 1 0 20) odd_keys (mkvals (length odd_keys)) 1000 with
    | Ok (s, _) => ld_height (s_ld s) = 2 /\ traced s (newIterator s) odd_calls = Ok
  [Some [97; 99]; Some [97]; Some [97; 99]; Some [97; 99; 1]; Some [98; 7]; Some [98; 9]; Some [98; 7]; Some [97; 99; 1]; Some [98; 7]; Some [97; 99; 1]; Some [99]; Some [98; 9]; Some [97]; Some [97; 99]; Some [99]; Some [98; 9]; Some [97]; Some [98; 7]; Some [97; 99; 1]; Some [97; 99]; Some [97]]
    | _ => False end) by (vm_compute; auto).
  build_with odd_keys 0 20 1000%Z s E X. destruct X as (X1 & X2). exists s.
  split; [apply (built_small _ _ _ _ _ _ _ _ b); [reflexivity|exact E]|]. split; [exact X1|]. split; [apply odd_allowed|exact X2].
Qed.
Example C48_example_sparse : exists s, built ex_fp 1 0 20 odd_keys (mkvals (length odd_keys)) 0 s /\ ld_height (s_ld s) = 0 /\
  allowed (ld_height (s_ld s)) true odd_calls /\ traced s (newIterator s) odd_calls = Ok
  [Some [97; 9]; Some [97; 7]; Some [97; 9]; Some [98; 7]; Some [98; 7]; Some [98; 9]; Some [98; 7]; Some [97; 99; 1]; Some [98; 7]; Some [97; 99; 1]; Some [99]; Some [98; 9]; Some [97]; Some [97; 99]; Some [99]; Some [98; 9]; None; Some [98; 7]; Some [97; 99; 1]; Some [97; 99]; Some [97]].
Proof.
  assert (X : match surf_build ex_fp 8 (newBuilder 1 0 20) odd_keys (mkvals (length odd_keys)) 0 with
    | Ok (s, _) => ld_height (s_ld s) = 0 /\ traced s (newIterator s) odd_calls = Ok
  [Some [97; 9]; Some [97; 7]; Some [97; 9]; Some [98; 7]; Some [98; 7]; Some [98; 9]; Some [98; 7]; Some [97; 99; 1]; Some [98; 7]; Some [97; 99; 1]; Some [99]; Some [98; 9]; Some [97]; Some [97; 99]; Some [99]; Some [98; 9]; None; Some [98; 7]; Some [97; 99; 1]; Some [97; 99]; Some [97]]
    | _ => False end) by (vm_compute; auto).
  build_with odd_keys 0 20 0%Z s E X. destruct X as (X1 & X2). exists s.
  split; [apply (built_small _ _ _ _ _ _ _ _ b); [reflexivity|exact E]|]. split; [exact X1|]. split; [apply odd_allowed|exact X2].
Qed.
(** A call that does panic. *)
Example C48_example_panic : exists s, built ex_fp 1 0 0 pre_keys (mkvals (length pre_keys)) 1000 s /\
  allowed (ld_height (s_ld s)) true [ISeek [7]; IPrev] /\ (exists it, icall_run s (newIterator s) (ISeek [7]) = Ok it /\ bad_call s pre_keys it IPrev /\ icall_run s it IPrev = Panic).
Proof.
  assert (X : match surf_build ex_fp 8 (newBuilder 1 0 0) pre_keys (mkvals (length pre_keys)) 1000 with
    | Ok (s, _) => 0 < ld_height (s_ld s) /\ match icall_run s (newIterator s) (ISeek [7]) with Ok it => it_valid it = true /\ it_key it = Ok [7] /\ icall_run s it IPrev = Panic | _ => False end
    | _ => False end) by (vm_compute; auto).
  build_with pre_keys 0 0 1000%Z s E X. destruct X as (X1 & X2). exists s.
  split; [apply (built_small _ _ _ _ _ _ _ _ b); [reflexivity|exact E]|]. split; [cbn [allowed]; repeat (split; [reflexivity|]); exact Logic.I|].
  destruct (icall_run s (newIterator s) (ISeek [7])) as [it| |]; [|destruct X2|destruct X2]. destruct X2 as (X2 & X3 & X4). exists it. split; [reflexivity|]. split; [|exact X4].
  split; [reflexivity|]. split; [exact X1|]. split; [exact X2|]. split; [repeat constructor|]. exists [7]. split; [exact X3|]. split; [now left|].
  intros k' I. unfold pre_keys in I. repeat (destruct I as [<-|I]; [eexists; reflexivity|]). destruct I.
Qed.
(** Why [allowed] asks for a Seek first: without dense levels SeekToFirst leaves the iterator
    not Valid, and Next then panics. *)
Definition two_keys : list bytes := [[1]; [2]].
Theorem C48_unplaced_refuted : exists fp vs h r keys vals hint s it, valid_input vs h r keys vals /\ built fp vs h r keys vals hint s /\
  icall_run s (newIterator s) IFirst = Ok it /\ it_valid it = false /\ icall_run s it INext = Panic.
Proof.
  assert (X : match surf_build ex_fp 8 (newBuilder 1 0 0) two_keys (mkvals (length two_keys)) 0 with
    | Ok (s, _) => match icall_run s (newIterator s) IFirst with Ok it => it_valid it = false /\ icall_run s it INext = Panic | _ => False end
    | _ => False end) by (vm_compute; auto).
  build_with two_keys 0 0 0%Z s E X. destruct (icall_run s (newIterator s) IFirst) as [it| |] eqn:F; [|destruct X|destruct X].
  exists ex_fp, 1, 0, 0, two_keys, (mkvals (length two_keys)), 0%Z, s, it.
  split; [apply validb_input_ok; vm_compute; reflexivity|]. split; [apply (built_small _ _ _ _ _ _ _ _ b); [reflexivity|exact E]|]. split; [exact F|exact X].
Qed.
Print Assumptions C48_unplaced_refuted.
(** Returning is all that holds for these queries: the key shown need not begin any stored key. *)
Theorem C48_key_shown_refuted : exists fp vs h r keys vals hint s q it k, valid_input vs h r keys vals /\ built fp vs h r keys vals hint s /\
  wf_bytes q = true /\ icall_run s (newIterator s) (ISeek q) = Ok it /\ it_valid it = true /\ it_key it = Ok k /\ forall k', In k' keys -> ~ is_prefix k k'.
Proof.
  assert (X : match surf_build ex_fp 8 (newBuilder 1 0 0) odd_keys (mkvals (length odd_keys)) 0 with
    | Ok (s, _) => match icall_run s (newIterator s) (ISeek [97; 98]) with Ok it => it_valid it = true /\ it_key it = Ok [97; 9] | _ => False end
    | _ => False end) by (vm_compute; auto).
  build_with odd_keys 0 0 0%Z s E X. destruct (icall_run s (newIterator s) (ISeek [97; 98])) as [it| |] eqn:F; [|destruct X|destruct X]. destruct X as [X1 X2].
  exists ex_fp, 1, 0, 0, odd_keys, (mkvals (length odd_keys)), 0%Z, s, [97; 98], it, [97; 9].
  split; [apply validb_input_ok; vm_compute; reflexivity|]. split; [apply (built_small _ _ _ _ _ _ _ _ b); [reflexivity|exact E]|]. split; [reflexivity|]. split; [exact F|]. split; [exact X1|]. split; [exact X2|].
  clear E F X1 X2. intros k' I P. apply is_prefixb_iff in P. revert P. unfold odd_keys in I. repeat (destruct I as [<-|I]; [vm_compute; congruence|]). destruct I.
Qed.
Print Assumptions C48_key_shown_refuted.
