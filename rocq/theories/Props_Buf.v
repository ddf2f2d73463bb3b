(** * C69: the buffer given to Unmarshal. *)
From Verif Require Import Base BitsModel VecModel SurfModel SurfSpec SurfTop SurfMarshal SurfMarshalProofs SurfBuf SurfBufSpec SurfBufTop Props_Surf Props_Marshal.

(** Unmarshal copies only the counts; the vectors and values of the filter stay in the buffer.
    As long as nobody changes it the filter is that of C24. *)
Theorem C69_in_place : forall m s, unmarshal m = Ok s <-> exists f, unmarshalR m = Ok f /\ surf_view m f = s.
Proof. exact view_unmarshal. Qed.
Print Assumptions C69_in_place.

(** Whatever is written to the buffer, the filter stays the same as long as the bytes in its
    slices are what they were. *)
Theorem C69_reuse_partial : forall m m' f, unmarshalR m = Ok f -> (forall i, in_use f i -> nth_error m' i = nth_error m i) ->
  surf_view m' f = surf_view m f.
Proof. intros m m' f _. exact (unused_bytes m m' f). Qed.
Print Assumptions C69_reuse_partial.

(** So the bytes behind a filter may be overwritten. *)
Theorem C69_trailing : forall fp vs h r keys vals hint s, valid_input vs h r keys vals -> built fp vs h r keys vals hint s -> fields_fit s ->
  forall rest, exists f, unmarshalR (marshal s ++ rest) = Ok f /\
    forall rest', length rest' = length rest -> surf_view (marshal s ++ rest') f = s.
Proof. exact trailing_bytes. Qed.
Print Assumptions C69_trailing.

(** Bytes of the values that are changed in the buffer are changed in what Get returns. *)
Theorem C69_values_follow : forall fp vs h r keys vals hint s, valid_input vs h r keys vals -> built fp vs h r keys vals hint s -> fields_fit s ->
  forall rest g, exists f m', unmarshalR (marshal s ++ rest) = Ok f /\
    length m' = length (marshal s ++ rest) /\ firstn (marshalNoValueSize s) m' = firstn (marshalNoValueSize s) (marshal s) /\ skipn (marshalSize s) m' = rest /\
    forall i k v, nth_error keys i = Some k -> nth_error vals i = Some v -> surf_get fp (surf_view m' f) k = Ok (Some (map g (firstn vs v))).
Proof. exact value_bytes. Qed.
Print Assumptions C69_values_follow.

(** The buffer may not be reused, for any filter with values: there are bytes to write behind
    MarshalNoValueSize after which Get returns a wrong value for every stored key. *)
Theorem C69_reuse_refuted : forall fp vs h r keys vals hint s, valid_input vs h r keys vals -> built fp vs h r keys vals hint s -> fields_fit s ->
  forall rest, 0 < vs -> exists f m', unmarshalR (marshal s ++ rest) = Ok f /\
    length m' = length (marshal s ++ rest) /\ firstn (marshalNoValueSize s) m' = firstn (marshalNoValueSize s) (marshal s) /\ skipn (marshalSize s) m' = rest /\
    forall i k v, nth_error keys i = Some k -> nth_error vals i = Some v -> exists w, surf_get fp (surf_view m' f) k = Ok (Some w) /\ w <> firstn vs v.
Proof. exact reuse_wrong. Qed.
Print Assumptions C69_reuse_refuted.

(** A filter of ten keys in its buffer: its stored keys and other ones; after the counts at the
    start of the buffer and the bytes behind the filter are overwritten; and after everything
    is zeroed, when every key is absent. *)
Definition buf_run (hint : Z) (change : bytes -> bytes) : res (list (res (option bytes))) :=
  ' (s, _) <- ex_filter hint ;;
  let m := marshal s ++ [7; 7; 7] in
  f <- unmarshalR m ;;
  Ok (map (surf_get ex_fp (surf_view (change m) f)) (ex_keys ++ [[97; 98]; [254]])).
Example C69_example_runs : let stored := map (fun i => Ok (Some [i; 100 + i])) (seq 0 10) ++ [Ok None; Ok None] in
  buf_run 1000 (fun m => m) = Ok stored /\
  buf_run 1000 (fun m => repeat 255 12 ++ firstn (length m - 15) (skipn 12 m) ++ [8; 8; 8]) = Ok stored /\
  buf_run 1000 (fun m => repeat 0 (length m)) = Ok (repeat (Ok None) 12) /\
  buf_run 0 (fun m => repeat 0 (length m)) = Ok (repeat (Ok None) 12).
Proof. cbv zeta. repeat split; vm_compute; reflexivity. Qed.
(** The hypotheses hold of it. *)
Example C69_example : exists s, valid_input 2 5 9 ex_keys ex_vals /\ built ex_fp 2 5 9 ex_keys ex_vals 1000 s /\ fields_fit s.
Proof.
  destruct C24_example as (s & B & F & _). exists s. split; [exact ex_valid|]. auto.
Qed.
