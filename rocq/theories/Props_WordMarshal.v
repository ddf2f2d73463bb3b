(** * C72: Marshal and Unmarshal with the 32-bit sizes of the code. *)
From Verif Require Import Base BitsModel VecModel SurfModel SurfMarshal SurfWord SurfBuildTop SurfSpec SurfTop SurfMarshalProofs VecProofs2 SurfWordSpec SurfWordProofs SurfWordTop SurfWordMarshal SurfWordMarshalProofs Props_Surf.

(** Build, Marshal, Unmarshal and Get with every uint32 modulo 2^32: with fewer than 2^23 keys,
    each shorter than 2^29 bytes, and fewer than 2^32 bytes of values, the filter restored from
    the marshalled bytes, whatever follows them, has every stored key with its value. *)
Theorem C72_stored_keys_found_partial : forall fp vs h r keys vals hint, valid_input vs h r keys vals ->
  (N.of_nat (length keys) < 8388608)%N -> Forall (fun k => (N.of_nat (length k) < 536870912)%N) keys ->
  (N.of_nat (length keys * vs) < 4294967296)%N ->
  exists s, built32 fp vs h r keys vals hint s /\ forall rest, exists s', unmarshal32 (marshal32 s ++ rest) = Ok s' /\
    forall i k v, nth_error keys i = Some k -> nth_error vals i = Some v -> surf_get32 fp s' k = Ok (Some (firstn vs v)).
Proof. exact found32. Qed.
Print Assumptions C72_stored_keys_found_partial.

(** The restored filter is the one that was marshalled, and MarshalSize is the number of bytes. *)
Theorem C72_restored_partial : forall fp vs h r keys vals hint s, valid_input vs h r keys vals ->
  (N.of_nat (length keys) < 8388608)%N -> Forall (fun k => (N.of_nat (length k) < 536870912)%N) keys ->
  (N.of_nat (length keys * vs) < 4294967296)%N -> built32 fp vs h r keys vals hint s ->
  length (marshal32 s) = marshalSize32 s /\ forall rest, unmarshal32 (marshal32 s ++ rest) = Ok s.
Proof. exact restored32. Qed.
Print Assumptions C72_restored_partial.

(** The bytes and the sizes are those computed with unbounded numbers. *)
Theorem C72_marshal_same_partial : forall fp vs h r keys vals hint s, valid_input vs h r keys vals -> built fp vs h r keys vals hint s ->
  (N.of_nat (length keys) < 8388608)%N -> (N.of_nat (length keys * vs) < 4294967296)%N ->
  marshal32 s = marshal s /\ marshalSize32 s = marshalSize s /\ marshalNoValueSize32 s = marshalNoValueSize s /\
  forall rest, unmarshal32 (marshal32 s ++ rest) = Ok s.
Proof. exact roundtrip32. Qed.
Print Assumptions C72_marshal_same_partial.

(** The assumption [fields_fit] of C24, C25, C52, C53, C69 and C70 follows from the limits. *)
Theorem C72_fields_fit : forall fp vs h r keys vals hint s, valid_input vs h r keys vals -> built fp vs h r keys vals hint s ->
  (N.of_nat (length keys) < 8388608)%N -> (N.of_nat (length keys * vs) < 4294967296)%N -> fields_fit s.
Proof. exact built_fields_fit. Qed.
Print Assumptions C72_fields_fit.

(** Beyond the limit on values it is false: a filter with 2^32 or more bytes of values in one of
    its two parts is never restored, *)
Theorem C72_big_not_restored : forall s rest,
  (4294967296 <= N.of_nat (length (vv_bytes (ld_values (s_ld s)))))%N \/ (4294967296 <= N.of_nat (length (vv_bytes (ls_values (s_ls s)))))%N ->
  unmarshal32 (marshal32 s ++ rest) <> Ok s.
Proof. exact big_not_restored. Qed.
Print Assumptions C72_big_not_restored.

(** and Build returns such a filter for three keys with values of 2^31 bytes. *)
Theorem C72_restored_refuted : exists fp vs keys vals s, valid_input vs 0 0 keys vals /\ built32 fp vs 0 0 keys vals 0 s /\
  forall rest, unmarshal32 (marshal32 s ++ rest) <> Ok s.
Proof. exact big_lost. Qed.
Print Assumptions C72_restored_refuted.

(** The hypotheses hold of the ten keys of Props_Surf. *)
Example C72_example : valid_input 2 5 9 ex_keys ex_vals /\ (N.of_nat (length ex_keys) < 8388608)%N /\
  Forall (fun k => (N.of_nat (length k) < 536870912)%N) ex_keys /\ (N.of_nat (length ex_keys * 2) < 4294967296)%N.
Proof. split; [exact ex_valid|]. repeat constructor. Qed.
Example C72_example_runs : forall hint, In hint [0%Z; 1000%Z] ->
  exists s, surf_build32 ex_fp 8 (newBuilder 2 5 9) ex_keys ex_vals hint = Ok s /\ Nat.ltb 100 (length (marshal32 s)) = true /\
    exists s', unmarshal32 (marshal32 s ++ [7; 7]) = Ok s' /\
    map (surf_get32 ex_fp s') ex_keys = map (fun i => Ok (Some [i; 100 + i])) (seq 0 10).
Proof.
  intros hint [<-|[<-|[]]]; eexists; (split; [vm_compute; reflexivity|]); (split; [vm_compute; reflexivity|]); eexists; (split; [vm_compute; reflexivity|]); vm_compute; reflexivity.
Qed.
(** A header of 2^32 and of 2^32 + 7 bytes of values reads as 0 and 7. *)
Example C72_example_wrap : forall n, N.of_nat n = 4294967296%N -> w32 n = 0 /\ w32 (n + 7) = 7.
Proof.
  intros n B. unfold w32, two32. split.
  - rewrite B. reflexivity.
  - replace (N.of_nat (n + 7)) with 4294967303%N by lia. reflexivity.
Qed.
