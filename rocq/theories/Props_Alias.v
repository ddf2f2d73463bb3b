(** * SuRF: what becomes of the filter when the caller changes a returned value (C62, C63). *)
From Verif Require Import Base BitsModel VecModel SurfModel SurfIter SurfSpec SurfTop SurfGetSpec SurfAlias SurfAliasProofs SurfAliasTop Props_Surf.

(** C62.  Get and Value show the bytes of the slices they return. *)
Theorem C62_get_is_slice : forall fp s q, surf_get fp s q = mapres (option_map (sl_read s)) (surf_slice fp s q).
Proof. exact get_reads_slice. Qed.
Print Assumptions C62_get_is_slice.
Theorem C62_value_is_slice : forall s it, it_value s it = mapres (sl_read s) (it_slice s it).
Proof. exact value_reads_slice. Qed.
Print Assumptions C62_value_is_slice.

(** Assigning to a byte of what Get returned gives the filter that Build would have made from
    the same keys with that byte changed in the value of the key that was hit. *)
Theorem C62_write_after_get : forall fp vs h r keys vals hint s q sl j b,
  valid_input vs h r keys vals -> built fp vs h r keys vals hint s -> wf_bytes q = true ->
  surf_slice fp s q = Ok (Some sl) -> j < vs ->
  exists i k v s', nth_error keys i = Some k /\ nth_error vals i = Some v /\ hit_by fp h r (ld_height (s_ld s)) keys k q /\ sl_read s sl = firstn vs v /\
    sl_write s sl j b = Ok s' /\ built fp vs h r keys (set_nth vals i (set_nth v j b)) hint s'.
Proof. exact get_write. Qed.
Print Assumptions C62_write_after_get.

(** For a stored key: later Gets of it see the new byte, Gets of other stored keys do not. *)
Theorem C62_write_seen : forall fp vs h r keys vals hint s i k v sl j b,
  valid_input vs h r keys vals -> built fp vs h r keys vals hint s ->
  nth_error keys i = Some k -> nth_error vals i = Some v -> surf_slice fp s k = Ok (Some sl) -> j < vs ->
  exists s', sl_write s sl j b = Ok s' /\
    surf_get fp s' k = Ok (Some (firstn vs (set_nth v j b))) /\
    forall i' k', nth_error keys i' = Some k' -> i' <> i -> surf_get fp s' k' = surf_get fp s k'.
Proof. exact get_write_seen. Qed.
Print Assumptions C62_write_seen.

(** The same for what Value returned. *)
Theorem C62_write_after_value : forall fp vs h r keys vals hint s it sl j b,
  valid_input vs h r keys vals -> built fp vs h r keys vals hint s ->
  it_slice s it = Ok sl -> j < vs ->
  exists i v s', i < length keys /\ nth_error vals i = Some v /\ it_value s it = Ok (firstn vs v) /\
    sl_write s sl j b = Ok s' /\ built fp vs h r keys (set_nth vals i (set_nth v j b)) hint s'.
Proof. exact value_write. Qed.
Print Assumptions C62_write_after_value.

(** One write in the dense and one in the sparse levels, on two keys of the example filter. *)
Definition after_write (s : surf) (k : bytes) (j b : nat) : res (list (res (option bytes))) :=
  sl <- surf_slice ex_fp s k ;;
  match sl with
  | Some sl => s' <- sl_write s sl j b ;; Ok (map (surf_get ex_fp s') ex_keys)
  | None => Panic
  end.
Example C62_example : exists s, built ex_fp 2 5 9 ex_keys ex_vals 1000 s /\
  surf_slice ex_fp s [97] = Ok (Some (mkVS DensePart 2 2)) /\ surf_slice ex_fp s [97; 98; 99; 1; 2] = Ok (Some (mkVS SparsePart 2 2)) /\
  after_write s [97] 1 66 = Ok (map (fun i => Ok (Some [i; if Nat.eqb i 1 then 66 else 100 + i])) (seq 0 10)) /\
  after_write s [97; 98; 99; 1; 2] 0 66 = Ok (map (fun i => Ok (Some [if Nat.eqb i 4 then 66 else i; 100 + i])) (seq 0 10)).
Proof.
  assert (X : match ex_filter 1000 with Ok (s, _) => surf_slice ex_fp s [97] = Ok (Some (mkVS DensePart 2 2)) /\ surf_slice ex_fp s [97; 98; 99; 1; 2] = Ok (Some (mkVS SparsePart 2 2)) /\
    after_write s [97] 1 66 = Ok (map (fun i => Ok (Some [i; if Nat.eqb i 1 then 66 else 100 + i])) (seq 0 10)) /\
    after_write s [97; 98; 99; 1; 2] 0 66 = Ok (map (fun i => Ok (Some [if Nat.eqb i 4 then 66 else i; 100 + i])) (seq 0 10)) | _ => False end) by (vm_compute; auto 10).
  destruct (ex_filter 1000) as [[s b]| |] eqn:E; [|destruct X|destruct X]. exists s. split; auto. apply ex_built. eauto.
Qed.

(** C63.  Appending to what Get returned can change the value of another key ... *)
Theorem C63_append_harmless_refuted : exists fp vs h r keys vals hint s k k' sl xs, valid_input vs h r keys vals /\ built fp vs h r keys vals hint s /\
  In k keys /\ In k' keys /\ k <> k' /\ surf_slice fp s k = Ok (Some sl) /\ surf_get fp (sl_append s sl xs) k' <> surf_get fp s k'.
Proof.
  assert (X : match ex_filter 0 with Ok (s, _) => surf_slice ex_fp s [255] = Ok (Some (mkVS SparsePart 10 2)) /\ surf_get ex_fp s [255; 255; 3] = Ok (Some [9; 109]) /\
     surf_get ex_fp (sl_append s (mkVS SparsePart 10 2) [1]) [255; 255; 3] = Ok (Some [1; 109]) | _ => False end) by (vm_compute; auto).
  destruct (ex_filter 0) as [[s b]| |] eqn:E; [|destruct X|destruct X]. destruct X as (X1 & X2 & X3).
  exists ex_fp, 2, 5, 9, ex_keys, ex_vals, 0%Z, s, [255], [255; 255; 3], (mkVS SparsePart 10 2), [1].
  split; [exact ex_valid|]. split; [apply ex_built; eauto|]. split; [cbn; auto 12|]. split; [cbn; auto 12|]. split; [discriminate|]. split; auto.
  rewrite X2, X3. discriminate.
Qed.
Print Assumptions C63_append_harmless_refuted.

(** ... exactly one other key's, as long as no more is appended than a value is long, unless the
    value is the last one of its array: then nothing changes. *)
Theorem C63_append_partial : forall fp vs h r keys vals hint s q sl xs,
  valid_input vs h r keys vals -> built fp vs h r keys vals hint s -> wf_bytes q = true ->
  surf_slice fp s q = Ok (Some sl) -> 0 < length xs <= vs ->
  exists i k v, nth_error keys i = Some k /\ nth_error vals i = Some v /\ hit_by fp h r (ld_height (s_ld s)) keys k q /\ sl_read s sl = firstn vs v /\
    ((sl_cap s sl = vs /\ sl_append s sl xs = s) \/
     (exists i' v', i' < length keys /\ i' <> i /\ nth_error vals i' = Some v' /\
        built fp vs h r keys (set_nth vals i' (xs ++ skipn (length xs) v')) hint (sl_append s sl xs))).
Proof. exact get_append. Qed.
Print Assumptions C63_append_partial.

(** Whatever is appended, to whichever slice: the keys stay, and so does the value itself. *)
Theorem C63_append_any_partial : forall fp vs h r keys vals hint s p pos sl xs,
  valid_input vs h r keys vals -> built fp vs h r keys vals hint s -> value_slice s p pos = Ok sl ->
  exists vals', valid_input vs h r keys vals' /\ built fp vs h r keys vals' hint (sl_append s sl xs) /\
    sl_read (sl_append s sl xs) sl = sl_read s sl.
Proof. exact slice_append. Qed.
Print Assumptions C63_append_any_partial.

(** Both cases of [C63_append_partial] occur: a value followed by another one and the last one. *)
Example C63_example : exists s, built ex_fp 2 5 9 ex_keys ex_vals 0 s /\
  surf_slice ex_fp s [255] = Ok (Some (mkVS SparsePart 10 2)) /\
  map (surf_get ex_fp (sl_append s (mkVS SparsePart 10 2) [1; 2])) ex_keys = map (fun i => Ok (Some (if Nat.eqb i 9 then [1; 2] else [i; 100 + i]))) (seq 0 10) /\
  surf_slice ex_fp s [97; 98; 99; 1; 2] = Ok (Some (mkVS SparsePart 18 2)) /\ sl_append s (mkVS SparsePart 18 2) [1; 2] = s.
Proof.
  assert (X : match ex_filter 0 with Ok (s, _) => surf_slice ex_fp s [255] = Ok (Some (mkVS SparsePart 10 2)) /\
    map (surf_get ex_fp (sl_append s (mkVS SparsePart 10 2) [1; 2])) ex_keys = map (fun i => Ok (Some (if Nat.eqb i 9 then [1; 2] else [i; 100 + i]))) (seq 0 10) /\
    surf_slice ex_fp s [97; 98; 99; 1; 2] = Ok (Some (mkVS SparsePart 18 2)) /\ sl_append s (mkVS SparsePart 18 2) [1; 2] = s | _ => False end) by (vm_compute; auto).
  destruct (ex_filter 0) as [[s b]| |] eqn:E; [|destruct X|destruct X]. exists s. split; auto. apply ex_built. eauto.
Qed.
