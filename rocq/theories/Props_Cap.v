(** * C73: Get on whatever bytes Unmarshal accepted. *)
From Verif Require Import Base BitsModel VecModel SurfModel SurfMarshal SurfWord SurfBuildTop SurfSpec SurfTop VecProofs2 SurfWordSpec SurfWordTop SurfWordMarshal SurfCap SurfCapProofs Props_Surf.

(** [unmarshal_get fp b more key] is Unmarshal of [b] followed by Get of [key], when [more] lies
    behind [b] in the array of the caller.  It answers or panics; it does not run for ever. *)
Theorem C73_ends_partial : forall fp b more key, (N.of_nat (length key) < 4294967296)%N ->
  (exists a, unmarshal_get fp b more key = Ok a) \/ unmarshal_get fp b more key = Panic.
Proof.
  intros fp b more key F. pose proof (unmarshal_get_ends fp b more key F) as N.
  destruct (unmarshal_get fp b more key) as [a| |]; [left; exists a; reflexivity|right; reflexivity|destruct N; reflexivity].
Qed.
Print Assumptions C73_ends_partial.

(** A value that it answers is a piece of the array, as long as one of the two value sizes
    that are stored in the data. *)
Theorem C73_value_in_array_partial : forall fp b more key v s, unmarshalC b = Ok s -> unmarshal_get fp b more key = Ok (Some v) ->
  (exists pre post, b ++ more = pre ++ v ++ post) /\
  (length v = vv_valueSize (ld_values (s_ld s)) \/ length v = vv_valueSize (ls_values (s_ls s))).
Proof. exact value_in_array. Qed.
Print Assumptions C73_value_in_array_partial.

(** For data that Marshal wrote, whatever is behind it, it answers what the marshalled filter
    answers, and finds the stored keys. *)
Theorem C73_marshalled_partial : forall fp vs h r keys vals hint s rest more, valid_input vs h r keys vals ->
  (N.of_nat (length keys) < 8388608)%N -> Forall (fun k => (N.of_nat (length k) < 536870912)%N) keys ->
  (N.of_nat (length keys * vs) < 4294967296)%N -> built32 fp vs h r keys vals hint s ->
  (forall i k v, nth_error keys i = Some k -> nth_error vals i = Some v -> unmarshal_get fp (marshal32 s ++ rest) more k = Ok (Some (firstn vs v))) /\
  (forall q, wf_bytes q = true -> (N.of_nat (length q) < 536870912)%N -> unmarshal_get fp (marshal32 s ++ rest) more q = surf_get32 fp s q).
Proof. exact built_get_cap. Qed.
Print Assumptions C73_marshalled_partial.

(** The marshalled filter of Props_Surf without dense levels, its 20 bytes of values replaced by none. *)
Definition ex_damaged : bytes :=
  match ex_filter 0 with Ok (s, _) => firstn (marshalNoValueSize32 s + 8) (marshal32 s) ++ [0; 0; 0; 0; 2; 0; 0; 0] | _ => [] end.
Lemma ex_damaged_accepted : exists s, unmarshalC ex_damaged = Ok s.
Proof. eexists. vm_compute. reflexivity. Qed.

(** That Get does not panic is false: Unmarshal accepts data for which Get panics. *)
Theorem C73_no_panic_refuted : exists fp b key, (exists s, unmarshalC b = Ok s) /\ unmarshal_get fp b [] key = Panic.
Proof. exists ex_fp, ex_damaged, [97]. split; [exact ex_damaged_accepted|]. vm_compute. reflexivity. Qed.
Print Assumptions C73_no_panic_refuted.

(** That the value is a piece of the data is false: Get returns bytes behind the slice that the
    caller gave to Unmarshal, if its array goes on there. *)
Theorem C73_value_in_data_refuted : exists fp b more key v, (exists s, unmarshalC b = Ok s) /\ unmarshal_get fp b more key = Ok (Some v) /\
  ~ exists pre post, b = pre ++ v ++ post.
Proof.
  exists ex_fp, ex_damaged, [222; 223], [], [222; 223]. split; [exact ex_damaged_accepted|]. split; [vm_compute; reflexivity|].
  intros (p & q & E). assert (X : existsb (Nat.eqb 222) ex_damaged = true) by (rewrite E; apply existsb_exists; exists 222; split; [apply in_or_app; right; left; reflexivity|reflexivity]).
  vm_compute in X. discriminate X.
Qed.
Print Assumptions C73_value_in_data_refuted.

(** The first keys get the bytes behind the data, the others panic. *)
Example C73_example_damaged : map (unmarshal_get ex_fp ex_damaged [201; 202; 203; 204]) ex_keys =
  Ok (Some [201; 202]) :: Ok (Some [203; 204]) :: repeat Panic 8.
Proof. vm_compute. reflexivity. Qed.
Example C73_example_marshalled : forall hint, In hint [0%Z; 1000%Z] ->
  exists s, surf_build32 ex_fp 8 (newBuilder 2 5 9) ex_keys ex_vals hint = Ok s /\
    map (unmarshal_get ex_fp (marshal32 s ++ [7]) [8; 8; 8]) ex_keys = map (fun i => Ok (Some [i; 100 + i])) (seq 0 10).
Proof. intros hint [<-|[<-|[]]]; eexists; (split; [vm_compute; reflexivity|]); vm_compute; reflexivity. Qed.
Example C73_example_limits : valid_input 2 5 9 ex_keys ex_vals /\ (N.of_nat (length ex_keys) < 8388608)%N /\
  Forall (fun k => (N.of_nat (length k) < 536870912)%N) ex_keys /\ (N.of_nat (length ex_keys * 2) < 4294967296)%N.
Proof. split; [exact ex_valid|]. repeat constructor. Qed.
(** The same data with the suffix type 9, which does not exist, in place of 3: it is accepted,
    and all keys but the one with suffix 0 are lost. *)
Example C73_example_unknown :
  exists s, surf_build32 ex_fp 8 (newBuilder 2 5 9) ex_keys ex_vals 0 = Ok s /\ nth 196 (marshal32 s) 0 = 3 /\
    map (unmarshal_get ex_fp (set_nth (marshal32 s) 196 9) []) ex_keys = Ok (Some [0; 100]) :: repeat (Ok None) 9.
Proof. eexists. split; [vm_compute; reflexivity|]. split; vm_compute; reflexivity. Qed.
(** With, moreover, 15 in place of 9 for the length of the real suffixes the last three suffixes
    lie behind the end of the suffix bits: those keys are lost too. *)
Example C73_example_short :
  exists s, surf_build32 ex_fp 8 (newBuilder 2 5 9) ex_keys ex_vals 0 = Ok s /\ nth 201 (marshal32 s) 0 = 9 /\
    map (unmarshal_get ex_fp (set_nth (set_nth (marshal32 s) 196 9) 201 15) []) ex_keys = Ok (Some [0; 100]) :: repeat (Ok None) 9.
Proof. eexists. split; [vm_compute; reflexivity|]. split; vm_compute; reflexivity. Qed.
(** Hash suffixes with the type 9 in place of 1 are compared with 0 and not with the hash. *)
Example C73_example_unknown_hash :
  exists s, surf_build32 ex_fp 8 (newBuilder 2 5 0) ex_keys ex_vals 0 = Ok s /\ nth 196 (marshal32 s) 0 = 1 /\
    map (unmarshal_get ex_fp (set_nth (marshal32 s) 196 9) []) ex_keys = Ok (Some [0; 100]) :: repeat (Ok None) 9.
Proof. eexists. split; [vm_compute; reflexivity|]. split; vm_compute; reflexivity. Qed.
