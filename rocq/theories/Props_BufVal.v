(** * C70: the values returned after Unmarshal are part of the caller's buffer. *)
From Verif Require Import Base BitsModel VecModel SurfModel SurfIter SurfSpec SurfTop SurfGetSpec SurfMarshal SurfMarshalProofs SurfAlias SurfAliasTop SurfBuf SurfBufTop SurfBufVal SurfBufValTop Props_Surf Props_Marshal.

(** Assigning to a byte of what Get returned gives the filter that Build would have made with
    that byte changed in the value of the key that was hit, and the buffer becomes what Marshal
    of that filter writes; what follows it in the buffer stays. *)
Theorem C70_store_after_get : forall fp vs h r keys vals hint s, valid_input vs h r keys vals -> built fp vs h r keys vals hint s -> fields_fit s ->
  forall rest f, unmarshalR (marshal s ++ rest) = Ok f ->
  forall q v j b, wf_bytes q = true -> buf_get fp (marshal s ++ rest) f q = Ok (Some v) -> j < vs ->
  exists i k x m', nth_error keys i = Some k /\ nth_error vals i = Some x /\ hit_by fp h r (ld_height (s_ld s)) keys k q /\ ref_bytes (marshal s ++ rest) v = firstn vs x /\
    buf_store (marshal s ++ rest) v j b = Ok m' /\ built fp vs h r keys (set_nth vals i (set_nth x j b)) hint (surf_view m' f) /\ m' = marshal (surf_view m' f) ++ rest.
Proof. exact get_store. Qed.
Print Assumptions C70_store_after_get.

(** The same for what Value returned. *)
Theorem C70_store_after_value : forall fp vs h r keys vals hint s, valid_input vs h r keys vals -> built fp vs h r keys vals hint s -> fields_fit s ->
  forall rest f, unmarshalR (marshal s ++ rest) = Ok f ->
  forall it v j b, buf_value (marshal s ++ rest) f it = Ok v -> j < vs ->
  exists i x m', i < length keys /\ nth_error vals i = Some x /\ it_value s it = Ok (firstn vs x) /\ ref_bytes (marshal s ++ rest) v = firstn vs x /\
    buf_store (marshal s ++ rest) v j b = Ok m' /\ built fp vs h r keys (set_nth vals i (set_nth x j b)) hint (surf_view m' f) /\ m' = marshal (surf_view m' f) ++ rest.
Proof. exact value_store. Qed.
Print Assumptions C70_store_after_value.

(** Whatever is appended to a returned value: the filter has the same keys, the value itself
    is as before, and so are the first MarshalNoValueSize bytes of the buffer. *)
Theorem C70_append_partial : forall fp vs h r keys vals hint s, valid_input vs h r keys vals -> built fp vs h r keys vals hint s -> fields_fit s ->
  forall rest f, unmarshalR (marshal s ++ rest) = Ok f ->
  forall v xs, handed fp (marshal s ++ rest) f v ->
  exists vals', valid_input vs h r keys vals' /\ built fp vs h r keys vals' hint (surf_view (buf_append (marshal s ++ rest) v xs) f) /\
    ref_bytes (buf_append (marshal s ++ rest) v xs) v = ref_bytes (marshal s ++ rest) v /\
    firstn (marshalNoValueSize s) (buf_append (marshal s ++ rest) v xs) = firstn (marshalNoValueSize s) (marshal s ++ rest).
Proof. exact append_any. Qed.
Print Assumptions C70_append_partial.

(** Appending leaves the rest of the buffer alone: false for every filter with something behind
    it in the buffer, and every value it returns. *)
Theorem C70_append_refuted : forall fp vs h r keys vals hint s, valid_input vs h r keys vals -> built fp vs h r keys vals hint s -> fields_fit s ->
  forall rest f, unmarshalR (marshal s ++ rest) = Ok f ->
  forall v, rest <> [] -> handed fp (marshal s ++ rest) f v ->
  exists xs, length (buf_append (marshal s ++ rest) v xs) = length (marshal s ++ rest) /\ skipn (marshalSize s) (buf_append (marshal s ++ rest) v xs) <> rest.
Proof. exact append_beyond. Qed.
Print Assumptions C70_append_refuted.

(** A run: the value of key [k] from the buffer of the example filter followed by 40 bytes;
    [xs] is appended to it; then the value is read again together with all stored keys, and
    Unmarshal is called again on the buffer. *)
Definition append_run (hint : Z) (k xs : bytes) : res (ref * list (res (option bytes)) * bool) :=
  ' (s, _) <- ex_filter hint ;;
  let m := marshal s ++ repeat 7 40 in
  f <- unmarshalR m ;;
  v <- buf_get ex_fp m f k ;;
  match v with
  | Some v => let m' := buf_append m v xs in
      Ok (v, map (surf_get ex_fp (surf_view m' f)) ex_keys, match unmarshal m' with Ok _ => true | _ => false end)
  | None => Panic
  end.
(** Appending four bytes to the last value of the dense levels changes no answer, but Unmarshal
    then refuses the buffer; ten bytes reach the first value of the sparse levels; 28 bytes the
    rest of the buffer, as [C70_append_partial] says without harm to the keys. *)
Example C70_example_runs :
  append_run 1000 [97; 98; 99] [255; 0; 0; 0] = Ok (mkRef 774 2, map (fun i => Ok (Some [i; 100 + i])) (seq 0 10), false) /\
  append_run 1000 [97; 98; 99] [4; 0; 0; 0; 2; 0; 0; 0; 66; 67] = Ok (mkRef 774 2, map (fun i => Ok (Some (if Nat.eqb i 3 then [66; 67] else [i; 100 + i]))) (seq 0 10), true) /\
  append_run 1000 [97; 98; 99] ([255; 0; 0; 0] ++ repeat 1 24) = Ok (mkRef 774 2, map (fun i => Ok (Some (if Nat.eqb i 3 || Nat.eqb i 4 then [1; 1] else [i; 100 + i]))) (seq 0 10), false).
Proof. repeat split; vm_compute; reflexivity. Qed.

(** So a buffer that Unmarshal accepted need not be accepted again after an append. *)
Theorem C70_again_refuted : exists fp vs h r keys vals hint s rest f v xs, valid_input vs h r keys vals /\ built fp vs h r keys vals hint s /\ fields_fit s /\
  unmarshalR (marshal s ++ rest) = Ok f /\ unmarshal (marshal s ++ rest) = Ok s /\ handed fp (marshal s ++ rest) f v /\ length xs = 4 /\ unmarshal (buf_append (marshal s ++ rest) v xs) = Panic.
Proof.
  assert (X : match ex_filter 1000 with
    | Ok (s, _) => match unmarshalR (marshal s ++ repeat 7 40) with
      | Ok f => buf_get ex_fp (marshal s ++ repeat 7 40) f [97; 98; 99] = Ok (Some (mkRef 774 2)) /\ unmarshal (buf_append (marshal s ++ repeat 7 40) (mkRef 774 2) [255; 0; 0; 0]) = Panic
      | _ => False end | _ => False end) by (vm_compute; auto).
  destruct (ex_filter 1000) as [[s b]| |] eqn:EB; [|destruct X|destruct X]. assert (B : built ex_fp 2 5 9 ex_keys ex_vals 1000 s) by (apply ex_built; eauto).
  assert (F : fields_fit s) by (apply (ex_fits 1000); eauto). exists ex_fp, 2, 5, 9, ex_keys, ex_vals, 1000%Z, s, (repeat 7 40).
  destruct (in_buffer ex_fp 2 5 9 ex_keys ex_vals 1000 s ex_valid B F (repeat 7 40)) as (f & E & VW). rewrite E in X. destruct X as (X1 & X2).
  exists f, (mkRef 774 2), [255; 0; 0; 0]. split; [exact ex_valid|]. split; auto. split; auto. split; auto. split; [apply view_unmarshal; eauto|].
  split; [left; eauto|]. split; auto.
Qed.
Print Assumptions C70_again_refuted.

(** Assignments to a value of the dense and to one of the sparse levels. *)
Definition store_run (hint : Z) (k : bytes) (j b : nat) : res (ref * list (res (option bytes)) * res (list (res (option bytes)))) :=
  ' (s, _) <- ex_filter hint ;;
  let m := marshal s ++ repeat 7 40 in
  f <- unmarshalR m ;;
  v <- buf_get ex_fp m f k ;;
  match v with
  | Some v => m' <- buf_store m v j b ;;
      Ok (v, map (surf_get ex_fp (surf_view m' f)) ex_keys, s' <- unmarshal m' ;; Ok (map (surf_get ex_fp s') ex_keys))
  | None => Panic
  end.
Example C70_example_stores : let after i x := map (fun j => Ok (Some (if Nat.eqb j i then x else [j; 100 + j]))) (seq 0 10) in
  store_run 1000 [97] 1 66 = Ok (mkRef 762 2, after 1 [1; 66], Ok (after 1 [1; 66])) /\
  store_run 1000 [97; 98; 99; 1; 2] 0 66 = Ok (mkRef 786 2, after 4 [66; 104], Ok (after 4 [66; 104])).
Proof. cbv zeta. split; vm_compute; reflexivity. Qed.
