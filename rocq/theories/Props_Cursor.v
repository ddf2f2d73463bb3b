(** * SuRF iterators in arbitrary call sequences, and the precision of HasOverlap: properties
    C37, C38, C39. *)
From Verif Require Import Base BitsModel VecModel SurfModel SurfTrie SurfEnc SurfSuffix SurfBuildTop SurfSpec SurfTop SurfSuffix2 SurfSuffix3 SurfGetSpec SurfIter SurfIterSpec SurfIterMain SurfIterSeek3 SurfIterCursor Props_Surf Props_Iter Props_Seek.

(** ** C37. No call panics. Partial: [call_ok] asks that Seek queries are those of C28; that SeekToFirst and
    SeekToLast are used with at least one dense level and no key that is a prefix of all; and
    that SeekToLast and Prev are used when, in addition, the root has no branch on byte 0. *)
Theorem C37_calls_partial : forall fp vs h r keys vals hint s, valid_input vs h r keys vals -> built fp vs h r keys vals hint s ->
  forall cs, Forall (call_ok (ld_height (s_ld s)) keys) cs -> completes s (newIterator s) cs.
Proof. exact calls_complete. Qed.
Print Assumptions C37_calls_partial.

(** ** C38. The iterator is where an ideal cursor over the stored keys is. Partial in the same way. *)
Theorem C38_cursor_partial : forall fp vs h r keys vals hint s, valid_input vs h r keys vals -> built fp vs h r keys vals hint s ->
  forall cs, Forall (call_ok (ld_height (s_ld s)) keys) cs -> follows vs r keys vals s (newIterator s) None cs.
Proof. exact cursor. Qed.
Print Assumptions C38_cursor_partial.

Fixpoint traced (s : surf) (it : iter) (cs : list icall) : res (list (option bytes)) :=
  match cs with
  | [] => Ok []
  | c :: cs => it <- icall_run s it c ;; k <- (if it_valid it then k <- it_key it ;; Ok (Some k) else Ok None) ;; l <- traced s it cs ;; Ok (k :: l)
  end.
Definition cur_keys : list bytes := [[1]; [2; 1; 1]; [2; 1; 2; 5]; [2; 1; 2; 6]; [3; 3]; [3; 4]; [9]].
Definition cur_calls : list icall :=
  [IPrev; ISeek [2; 1; 1]; IPrev; INext; IPrev; INext; INext; IPrev; IPrev; IPrev; INext; ILast; INext; IFirst; INext; INext; INext; INext; IPrev; INext;
   ISeek [2; 2]; IPrev; INext; ISeek [9; 9]].
Lemma cur_valid : valid_input 1 3 4 cur_keys (mkvals (length cur_keys)).
Proof. apply validb_input_ok. vm_compute. reflexivity. Qed.
Lemma cur_free : prefix_free cur_keys.
Proof.
  intros k k' H H' P. apply is_prefixb_iff in P.
  assert (X : forallb (fun a => forallb (fun b => negb (is_prefixb a b) || beqb a b) cur_keys) cur_keys = true) by (vm_compute; reflexivity).
  rewrite forallb_forall in X. specialize (X k H). rewrite forallb_forall in X. specialize (X k' H'). rewrite P in X. cbn [negb orb] in X. now apply beqb_eq.
Qed.
Lemma cur_calls_ok d : 0 < d -> Forall (call_ok d cur_keys) cur_calls.
Proof.
  assert (NP : ~ prefix_of_all cur_keys).
  { intros (_ & k & I & P). pose proof (P [1] ltac:(cbn; tauto)) as (c1 & E1). pose proof (P [9] ltac:(cbn; tauto)) as (c2 & E2).
    destruct k as [|x k]; [|cbn in E1, E2; congruence]. cbn in I. repeat (destruct I as [I|I]; [discriminate|]). destruct I. }
  assert (NZ : ~ zero_branch cur_keys).
  { intros (p & P & (k & I & (c & E)) & _). pose proof (P [1] ltac:(cbn; tauto)) as (c1 & E1). pose proof (P [9] ltac:(cbn; tauto)) as (c2 & E2).
    destruct p as [|x p]; [|cbn in E1, E2; congruence]. cbn in I. repeat (destruct I as [I|I]; [subst k; discriminate|]). destruct I. }
  assert (SK : forall q, wf_bytes q = true -> call_ok d cur_keys (ISeek q)) by (intros q W; split; [exact W|intros k I; exfalso; exact (prefix_free_inner _ _ cur_free I)]).
  intros D. unfold cur_calls. repeat (constructor; [first [exact Logic.I|apply SK; reflexivity|now split|now split; [|split]]|]). constructor.
Qed.
(** One dense level; the calls cross between the dense and the sparse part in both directions,
    run off both ends and come back. *)
Example C38_example : exists s, built ex_fp 1 3 4 cur_keys (mkvals (length cur_keys)) 100 s /\ ld_height (s_ld s) = 1 /\ ls_height (s_ls s) = 3 /\
  Forall (call_ok (ld_height (s_ld s)) cur_keys) cur_calls /\
  traced s (newIterator s) cur_calls = Ok
   [None; Some [2; 1; 1]; Some [1]; Some [2; 1; 1]; Some [1]; Some [2; 1; 1]; Some [2; 1; 2; 5]; Some [2; 1; 1]; Some [1]; None; None;
    Some [9]; None; Some [1]; Some [2; 1; 1]; Some [2; 1; 2; 5]; Some [2; 1; 2; 6]; Some [3; 3]; Some [2; 1; 2; 6]; Some [3; 3];
    Some [3; 3]; Some [2; 1; 2; 6]; Some [3; 3]; Some [9]].
Proof.
  assert (X : match surf_build ex_fp 8 (newBuilder 1 3 4) cur_keys (mkvals (length cur_keys)) 100 with
    | Ok (s, _) => ld_height (s_ld s) = 1 /\ ls_height (s_ls s) = 3 /\ traced s (newIterator s) cur_calls = Ok
   [None; Some [2; 1; 1]; Some [1]; Some [2; 1; 1]; Some [1]; Some [2; 1; 1]; Some [2; 1; 2; 5]; Some [2; 1; 1]; Some [1]; None; None;
    Some [9]; None; Some [1]; Some [2; 1; 1]; Some [2; 1; 2; 5]; Some [2; 1; 2; 6]; Some [3; 3]; Some [2; 1; 2; 6]; Some [3; 3];
    Some [3; 3]; Some [2; 1; 2; 6]; Some [3; 3]; Some [9]]
    | _ => False end) by (vm_compute; auto).
  build_with cur_keys 3 4 100%Z s E X. destruct X as (X1 & X2 & X3). exists s.
  split; [apply (built_small _ _ _ _ _ _ _ _ b); [reflexivity|exact E]|]. split; [exact X1|]. split; [exact X2|]. split; [|exact X3].
  apply cur_calls_ok. rewrite X1. repeat constructor.
Qed.
(** False in general: SeekToFirst misses a key that is a prefix of all the others. *)
Theorem C38_cursor_refuted : exists fp vs h r keys vals hint s it k, valid_input vs h r keys vals /\ built fp vs h r keys vals hint s /\ 0 < ld_height (s_ld s) /\
  it_seekToFirst s (newIterator s) = Ok it /\ it_valid it = true /\ it_key it = Ok k /\ k <> dprefix keys (nth 0 keys []).
Proof.
  assert (X : match surf_build ex_fp 8 (newBuilder 1 0 0) pre_keys (mkvals (length pre_keys)) 1000 with
    | Ok (s, _) => 0 < ld_height (s_ld s) /\ match it_seekToFirst s (newIterator s) with Ok it => it_valid it = true /\ match it_key it with Ok k => beqb k (dprefix pre_keys (nth 0 pre_keys [])) = false | _ => False end | _ => False end
    | _ => False end) by (vm_compute; auto).
  build_with pre_keys 0 0 1000%Z s E X. destruct X as [X0 X]. destruct (it_seekToFirst s (newIterator s)) as [it| |] eqn:F; [|destruct X|destruct X]. destruct X as [X1 X2].
  destruct (it_key it) as [k| |] eqn:K; [|destruct X2|destruct X2].
  exists ex_fp, 1, 0, 0, pre_keys, (mkvals (length pre_keys)), 1000%Z, s, it, k.
  split; [apply validb_input_ok; vm_compute; reflexivity|]. split; [apply (built_small _ _ _ _ _ _ _ _ b); [reflexivity|exact E]|].
  split; [exact X0|]. split; [exact F|]. split; [exact X1|]. split; [exact K|]. intros EQ. rewrite EQ in X2. rewrite (proj2 (beqb_eq _ _) eq_refl) in X2. discriminate.
Qed.
Print Assumptions C38_cursor_refuted.

(** ** C39. A positive HasOverlap answer is backed by a stored key. Partial: start and stop as for
    C29, and stop does not lead from the root just to the end of the dense levels, as a proper
    prefix of a stored key below them that itself is a proper prefix of another. *)
Theorem C39_overlap_backed_partial : forall fp vs h r keys vals hint s, valid_input vs h r keys vals -> built fp vs h r keys vals hint s ->
  forall start stop (includeEnd : bool), wf_bytes start = true -> wf_bytes stop = true -> seek_ok (ld_height (s_ld s)) r keys start -> suffix_ok r keys stop ->
  (forall k, inner_key keys k -> is_prefix stop k -> ld_height (s_ld s) <= levels_above keys k -> length stop = start_depth (ld_height (s_ld s)) keys k -> k = stop) -> hasOverlap s start stop includeEnd = Ok true ->
  exists k, In k keys /\ (ble start k \/ undecided r keys k start) /\ ((if includeEnd then ble k stop else blt k stop) \/ undecided r keys k stop).
Proof. exact overlap_precise. Qed.
Print Assumptions C39_overlap_backed_partial.
(** A true answer without a stored key in the range, backed by [1; 0; 5] (known up to [1; 0]). *)
Example C39_example : exists s, built ex_fp 1 3 4 free_keys (mkvals (length free_keys)) 1000 s /\
  hasOverlap s [1; 0; 1] [1; 0; 2] true = Ok true /\ hasOverlap s [1; 0; 16] [1; 0; 17] true = Ok false.
Proof.
  assert (X : match surf_build ex_fp 8 (newBuilder 1 3 4) free_keys (mkvals (length free_keys)) 1000 with
    | Ok (s, _) => hasOverlap s [1; 0; 1] [1; 0; 2] true = Ok true /\ hasOverlap s [1; 0; 16] [1; 0; 17] true = Ok false
    | _ => False end) by (vm_compute; auto).
  build_with free_keys 3 4 1000%Z s E X. exists s.
  split; [apply (built_small _ _ _ _ _ _ _ _ b); [reflexivity|exact E]|exact X].
Qed.
(** False in general: with keys "ab", "abc" and no dense level, the range [] to [] overlaps. *)
Definition ab_keys : list bytes := [[97; 98]; [97; 98; 99]].
Theorem C39_overlap_backed_refuted : exists fp vs h r keys vals hint s start stop, valid_input vs h r keys vals /\ built fp vs h r keys vals hint s /\ r <= 8 /\
  hasOverlap s start stop true = Ok true /\ forall k, In k keys -> blt stop k /\ ~ undecided r keys k stop.
Proof.
  assert (X : match surf_build ex_fp 8 (newBuilder 1 0 0) ab_keys (mkvals (length ab_keys)) 0 with
    | Ok (s, _) => hasOverlap s [] [] true = Ok true
    | _ => False end) by (vm_compute; auto).
  build_with ab_keys 0 0 0%Z s E X.
  exists ex_fp, 1, 0, 0, ab_keys, (mkvals (length ab_keys)), 0%Z, s, [], [].
  split; [apply validb_input_ok; vm_compute; reflexivity|]. split; [apply (built_small _ _ _ _ _ _ _ _ b); [reflexivity|exact E]|].
  split; [repeat constructor|]. split; [exact X|]. intros k [<-|[<-|[]]]; (split; [reflexivity|]); intros [(x & P) _]; vm_compute in P; discriminate.
Qed.
Print Assumptions C39_overlap_backed_refuted.
