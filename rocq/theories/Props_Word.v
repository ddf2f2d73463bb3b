(** * C64: Build and Get with the 32-bit counters of the code. *)
From Verif Require Import Base BitsModel VecModel SurfModel SurfWord SurfBuildTop SurfSpec SurfTop VecProofs2 SurfWordSpec SurfWordProofs SurfWordTop SurfWordBig Props_Surf.

(** The model of Build and Get used here keeps every uint32 of the code modulo 2^32.  With
    fewer than 2^23 keys, each shorter than 2^29 bytes, and fewer than 2^32 bytes of values,
    Build returns, and Get of a stored key returns its value. *)
Theorem C64_stored_keys_found_partial : forall fp vs h r keys vals hint, valid_input vs h r keys vals ->
  (N.of_nat (length keys) < 8388608)%N -> Forall (fun k => (N.of_nat (length k) < 536870912)%N) keys ->
  (N.of_nat (length keys * vs) < 4294967296)%N ->
  exists s, built32 fp vs h r keys vals hint s /\
    forall i k v, nth_error keys i = Some k -> nth_error vals i = Some v -> surf_get32 fp s k = Ok (Some (firstn vs v)).
Proof. exact stored32. Qed.
Print Assumptions C64_stored_keys_found_partial.

(** The filter is the one that Build with unbounded counters returns. *)
Theorem C64_build_same_partial : forall fp vs h r keys vals hint s, valid_input vs h r keys vals ->
  (N.of_nat (length keys) < 8388608)%N -> Forall (fun k => (N.of_nat (length k) < 536870912)%N) keys ->
  (N.of_nat (length keys * vs) < 4294967296)%N ->
  built32 fp vs h r keys vals hint s <-> built fp vs h r keys vals hint s.
Proof. exact built32_iff. Qed.
Print Assumptions C64_build_same_partial.

(** Get of any key shorter than 2^29 bytes answers what Get with unbounded counters answers. *)
Theorem C64_get_same_partial : forall fp vs h r keys vals hint s q, valid_input vs h r keys vals -> built fp vs h r keys vals hint s ->
  (N.of_nat (length keys) < 8388608)%N -> (N.of_nat (length keys * vs) < 4294967296)%N ->
  wf_bytes q = true -> (N.of_nat (length q) < 536870912)%N -> surf_get32 fp s q = surf_get fp s q.
Proof. exact get32_same. Qed.
Print Assumptions C64_get_same_partial.

(** Without the bound on the values it is false: three keys with values of 2^31 bytes, and Get
    of the third one returns the value of the first. *)
Theorem C64_stored_keys_found_refuted : exists fp vs keys vals s k v w, valid_input vs 0 0 keys vals /\ built32 fp vs 0 0 keys vals 0 s /\
  In (k, v) (combine keys vals) /\ length v = vs /\ surf_get32 fp s k = Ok (Some w) /\ w <> v.
Proof. exact big_wrong. Qed.
Print Assumptions C64_stored_keys_found_refuted.

(** The hypotheses hold of the ten keys of Props_Surf, with all levels dense that can be and
    with none; the answers are those of C17 and C18. *)
Example C64_example : valid_input 2 5 9 ex_keys ex_vals /\ (N.of_nat (length ex_keys) < 8388608)%N /\
  Forall (fun k => (N.of_nat (length k) < 536870912)%N) ex_keys /\ (N.of_nat (length ex_keys * 2) < 4294967296)%N.
Proof. split; [exact ex_valid|]. repeat constructor. Qed.
Example C64_example_runs : forall hint, In hint [0%Z; 1000%Z] ->
  exists s b, ex_filter hint = Ok (s, b) /\ surf_build32 ex_fp 8 (newBuilder 2 5 9) ex_keys ex_vals hint = Ok s /\
    map (surf_get32 ex_fp s) ex_keys = map (fun i => Ok (Some [i; 100 + i])) (seq 0 10) /\
    map (surf_get32 ex_fp s) [[97; 98; 99; 1]; [97; 98]; [254]; [98; 5; 5; 2]] = [Ok None; Ok None; Ok None; Ok None].
Proof.
  intros hint [<-|[<-|[]]]; eexists; eexists; split; try (vm_compute; reflexivity); split; try (vm_compute; reflexivity); split; vm_compute; reflexivity.
Qed.
(** What the two models disagree about: an offset of 2^32 is 0. *)
Example C64_example_wrap : forall vs, N.of_nat vs = 2147483648%N -> mul32 2 vs = 0 /\ mul32 1 vs = vs.
Proof.
  intros vs B. split; unfold mul32, w32, two32.
  - replace (N.of_nat (2 * vs)) with 4294967296%N by lia. reflexivity.
  - replace (N.of_nat (1 * vs)) with (N.of_nat vs) by lia. rewrite N.mod_small by (rewrite B; reflexivity). apply Nat2N.id.
Qed.
