(** * Keys handed out by the iterators, with the buffers they point into: properties C65, C66, C67. *)
From Verif Require Import Base BitsModel VecModel SurfModel SurfSpec SurfTop SurfIter SurfIterSpec SurfPrevSpec SurfKeyMem SurfKeyMemSpec SurfKeyMemTop Props_Surf Props_Iter Props_Cursor.

(** ** C65. Although the buffers are reused, a key read as soon as Key returned it is the right one:
    for every way append may choose capacities and every program that moves the iterator and reads
    keys, the bytes read are those of a model in which every key is a fresh copy. *)
Theorem C65_same : forall grow s acts out, Forall reads_only acts -> lexec s (newIterator s) acts = Ok out ->
  exists it refs, mexec grow s (newMIterator s) [] acts = Ok (it, refs, out).
Proof. exact exec_reads. Qed.
Print Assumptions C65_same.
(** In particular iteration visits what C46 says. *)
Theorem C65_forward : forall grow fp vs h r keys vals hint s, valid_input vs h r keys vals -> built fp vs h r keys vals hint s -> 0 < ld_height (s_ld s) ->
  exists it, mi_seekToFirst grow s (newMIterator s) = Ok it /\
    ((prefix_of_all keys /\ mvisits grow s (mi_next grow s) it (map (shown vs keys) (tl (combine keys vals)))) \/
     (~ prefix_of_all keys /\ mvisits grow s (mi_next grow s) it (map (shown vs keys) (combine keys vals)))).
Proof. exact mforward. Qed.
Print Assumptions C65_forward.
Theorem C65_backward : forall grow fp vs h r keys vals hint s, valid_input vs h r keys vals -> built fp vs h r keys vals hint s -> 0 < ld_height (s_ld s) ->
  exists it m, mi_seekToLast grow s (newMIterator s) = Ok it /\ m < length keys /\ prev_stops (ld_height (s_ld s)) keys m /\
    (forall i, m < i -> i < length keys -> ~ prev_stops (ld_height (s_ld s)) keys i) /\
    mvisits grow s (mi_prev grow s) it (map (shown vs keys) (rev (skipn m (combine keys vals)))).
Proof. exact mbackward. Qed.
Print Assumptions C65_backward.

(** Capacities of short slices as Go chooses them: 8, then 16. *)
Definition go_grow (cap n : nat) : nat := if Nat.leb n 8 then 8 - n else 16 - n.
Definition reading : list act :=
  [Move (ISeek [2; 1; 1]); ReadKey; Move IPrev; ReadKey; ReadKey; Move INext; Move INext; ReadKey; Move ILast; ReadKey; Move IPrev; ReadKey; Move IPrev; Move IPrev; ReadKey].
(** Both kinds of keys, with and without spare capacity. *)
Example C65_example : exists s, built ex_fp 1 3 4 cur_keys (mkvals (length cur_keys)) 100 s /\ ld_height (s_ld s) = 1 /\ Forall reads_only reading /\
  lexec s (newIterator s) reading = Ok [[2; 1; 1]; [1]; [1]; [2; 1; 2; 5]; [9]; [3; 4]; [2; 1; 2; 6]].
Proof.
  assert (X : match surf_build ex_fp 8 (newBuilder 1 3 4) cur_keys (mkvals (length cur_keys)) 100 with
    | Ok (s, _) => ld_height (s_ld s) = 1 /\ lexec s (newIterator s) reading = Ok [[2; 1; 1]; [1]; [1]; [2; 1; 2; 5]; [9]; [3; 4]; [2; 1; 2; 6]]
    | _ => False end) by (vm_compute; auto).
  build_with cur_keys 3 4 100%Z s E X. exists s. split; [apply (built_small _ _ _ _ _ _ _ _ b); [reflexivity|exact E]|]. split; [apply X|]. split; [|apply X].
  unfold reading. repeat constructor.
Qed.

(** ** C66. A key keeps its bytes while the iterator goes on. Partial: keys that end below the
    dense levels, until the next call of Key. *)
Theorem C66_key_kept_partial : forall grow s it it1 k cs it2, mi_key grow it = Ok (it1, k) -> md_isComplete (mi_dense it) = false ->
  mcalls_run grow s it1 cs = Ok it2 -> key_bytes it2 k = key_bytes it1 k.
Proof. exact kept. Qed.
Print Assumptions C66_key_kept_partial.
Definition held_keys : list bytes := [[1]; [2]; [3; 1]; [3; 2]].
(** A key below the dense levels: [3; 1], read from the Iterator's buffer, is kept by Next. *)
Example C66_example : exists s, built ex_fp 1 0 0 held_keys (mkvals (length held_keys)) 1000 s /\ ld_height (s_ld s) = 1 /\
  match mcalls_run go_grow s (newMIterator s) [IFirst; INext; INext] with
  | Ok it => md_isComplete (mi_dense it) = false /\
      match mi_key go_grow it with
      | Ok (it1, k) => key_bytes it1 k = [3; 1] /\ match mcalls_run go_grow s it1 [INext] with Ok it2 => key_bytes it2 k = [3; 1] | _ => False end
      | _ => False
      end
  | _ => False
  end.
Proof.
  assert (X : match surf_build ex_fp 8 (newBuilder 1 0 0) held_keys (mkvals (length held_keys)) 1000 with
    | Ok (s, _) => ld_height (s_ld s) = 1 /\
      match mcalls_run go_grow s (newMIterator s) [IFirst; INext; INext] with
      | Ok it => md_isComplete (mi_dense it) = false /\
          match mi_key go_grow it with
          | Ok (it1, k) => key_bytes it1 k = [3; 1] /\ match mcalls_run go_grow s it1 [INext] with Ok it2 => key_bytes it2 k = [3; 1] | _ => False end
          | _ => False
          end
      | _ => False
      end
    | _ => False end) by (vm_compute; auto).
  build_with held_keys 0 0 1000%Z s E X. exists s. split; [apply (built_small _ _ _ _ _ _ _ _ b); [reflexivity|exact E]|exact X].
Qed.

(** A key from the dense levels: [1] becomes [2] on Next, however append chooses capacities. *)
Definition reads_as (r : res (miter * list keyref * list bytes)) (j : nat) (now : bytes) (out : list bytes) : Prop :=
  match r with Ok (it, refs, o) => o = out /\ match nth_error refs j with Some k => key_bytes it k = now | None => False end | _ => False end.
Theorem C66_key_kept_refuted : exists fp vs h r keys vals hint s, valid_input vs h r keys vals /\ built fp vs h r keys vals hint s /\
  forall grow, reads_as (mexec grow s (newMIterator s) [] [Move IFirst; ReadKey; Move INext]) 0 [2] [[1]].
Proof.
  assert (X : match surf_build ex_fp 8 (newBuilder 1 0 0) held_keys (mkvals (length held_keys)) 1000 with
    | Ok (s, _) => forall grow, reads_as (mexec grow s (newMIterator s) [] [Move IFirst; ReadKey; Move INext]) 0 [2] [[1]]
    | _ => False end) by (vm_compute; auto).
  exists ex_fp, 1, 0, 0, held_keys, (mkvals (length held_keys)), 1000%Z. build_with held_keys 0 0 1000%Z s E X. exists s.
  split; [apply validb_input_ok; vm_compute; reflexivity|]. split; [apply (built_small _ _ _ _ _ _ _ _ b); [reflexivity|exact E]|exact X].
Qed.
Print Assumptions C66_key_kept_refuted.
(** A key below the dense levels: [3; 1] becomes [3; 2] on the next call of Key, with Go's capacities. *)
Theorem C66_key_kept_below_refuted : exists fp vs h r keys vals hint s, valid_input vs h r keys vals /\ built fp vs h r keys vals hint s /\
  reads_as (mexec go_grow s (newMIterator s) [] [Move (ISeek [3; 1]); ReadKey; Move INext; ReadKey]) 0 [3; 2] [[3; 1]; [3; 2]].
Proof.
  assert (X : match surf_build ex_fp 8 (newBuilder 1 0 0) held_keys (mkvals (length held_keys)) 1000 with
    | Ok (s, _) => reads_as (mexec go_grow s (newMIterator s) [] [Move (ISeek [3; 1]); ReadKey; Move INext; ReadKey]) 0 [3; 2] [[3; 1]; [3; 2]]
    | _ => False end) by (vm_compute; auto).
  exists ex_fp, 1, 0, 0, held_keys, (mkvals (length held_keys)), 1000%Z. build_with held_keys 0 0 1000%Z s E X. exists s.
  split; [apply validb_input_ok; vm_compute; reflexivity|]. split; [apply (built_small _ _ _ _ _ _ _ _ b); [reflexivity|exact E]|exact X].
Qed.
Print Assumptions C66_key_kept_below_refuted.

(** ** C67. The caller may store bytes in a key or append to it without changing the keys read
    later. Partial: stores that miss the bytes the dense part of the iterator is using ([careful]):
    any store in or append to a key that ends below the dense levels, an append to a key just
    returned from the dense levels that is not a stored prefix of other keys, and an append to any
    key for which its array has no room. *)
Theorem C67_caller_stores_partial : forall grow s acts out, careful grow s (newMIterator s) [] acts = true -> lexec s (newIterator s) acts = Ok out ->
  exists it refs, mexec grow s (newMIterator s) [] acts = Ok (it, refs, out).
Proof. exact exec_new. Qed.
Print Assumptions C67_caller_stores_partial.
(** The first two cases named above. *)
Theorem C67_below_spared : forall grow it it1 k i, mi_key grow it = Ok (it1, k) -> md_isComplete (mi_dense it) = false -> spares it1 k i = true.
Proof. exact below_spared. Qed.
Print Assumptions C67_below_spared.
Theorem C67_append_spared : forall grow it it1 k, mi_key grow it = Ok (it1, k) -> md_atPrefix (mi_dense it) = false -> spares it1 k (k_len k) = true.
Proof. exact append_spared. Qed.
Print Assumptions C67_append_spared.
Definition storing : list act :=
  [Move IFirst; ReadKey; Extend 0 [7; 7; 7]; Move INext; ReadKey; Move INext; ReadKey; SetByte 2 0 99; SetByte 2 1 98; Extend 2 [5]; ReadKey; Move INext; SetByte 2 0 97; ReadKey; Move IPrev; ReadKey].
Example C67_example : exists s, built ex_fp 1 0 0 held_keys (mkvals (length held_keys)) 1000 s /\ ld_height (s_ld s) = 1 /\
  careful go_grow s (newMIterator s) [] storing = true /\ lexec s (newIterator s) storing = Ok [[1]; [2]; [3; 1]; [3; 1]; [3; 2]; [3; 1]].
Proof.
  assert (X : match surf_build ex_fp 8 (newBuilder 1 0 0) held_keys (mkvals (length held_keys)) 1000 with
    | Ok (s, _) => ld_height (s_ld s) = 1 /\ careful go_grow s (newMIterator s) [] storing = true /\ lexec s (newIterator s) storing = Ok [[1]; [2]; [3; 1]; [3; 1]; [3; 2]; [3; 1]]
    | _ => False end) by (vm_compute; auto).
  build_with held_keys 0 0 1000%Z s E X. exists s. split; [apply (built_small _ _ _ _ _ _ _ _ b); [reflexivity|exact E]|exact X].
Qed.

(** Storing 9 in the first byte of [1; 1] makes the next key [9; 2] instead of [1; 2]. *)
Definition stored_keys : list bytes := [[1; 1]; [1; 2]; [2; 1; 1]; [2; 1; 2]; [2; 2]].
Theorem C67_store_refuted : exists fp vs h r keys vals hint s, valid_input vs h r keys vals /\ built fp vs h r keys vals hint s /\
  let acts := [Move IFirst; ReadKey; SetByte 0 0 9; Move INext; ReadKey] in
  lexec s (newIterator s) acts = Ok [[1; 1]; [1; 2]] /\
  reads_as (mexec go_grow s (newMIterator s) [] acts) 1 [9; 2] [[1; 1]; [9; 2]].
Proof.
  assert (X : match surf_build ex_fp 8 (newBuilder 1 0 0) stored_keys (mkvals (length stored_keys)) 10000 with
    | Ok (s, _) => let acts := [Move IFirst; ReadKey; SetByte 0 0 9; Move INext; ReadKey] in
      lexec s (newIterator s) acts = Ok [[1; 1]; [1; 2]] /\
      reads_as (mexec go_grow s (newMIterator s) [] acts) 1 [9; 2] [[1; 1]; [9; 2]]
    | _ => False end) by (vm_compute; auto).
  exists ex_fp, 1, 0, 0, stored_keys, (mkvals (length stored_keys)), 10000%Z. build_with stored_keys 0 0 10000%Z s E X. exists s.
  split; [apply validb_input_ok; vm_compute; reflexivity|]. split; [apply (built_small _ _ _ _ _ _ _ _ b); [reflexivity|exact E]|exact X].
Qed.
Print Assumptions C67_store_refuted.
(** Appending 9 to the stored prefix key [1] makes the next key [1; 9] instead of [1; 1]. *)
Definition app_keys : list bytes := [[1]; [1; 1]; [1; 2]; [2; 1; 1]; [2; 1; 2]; [2; 2]].
Theorem C67_append_refuted : exists fp vs h r keys vals hint s, valid_input vs h r keys vals /\ built fp vs h r keys vals hint s /\
  let acts := [Move IFirst; ReadKey; Extend 0 [9]; Move INext; ReadKey] in
  lexec s (newIterator s) acts = Ok [[1]; [1; 1]] /\
  reads_as (mexec go_grow s (newMIterator s) [] acts) 1 [1; 9] [[1]; [1; 9]].
Proof.
  assert (X : match surf_build ex_fp 8 (newBuilder 1 0 0) app_keys (mkvals (length app_keys)) 10000 with
    | Ok (s, _) => let acts := [Move IFirst; ReadKey; Extend 0 [9]; Move INext; ReadKey] in
      lexec s (newIterator s) acts = Ok [[1]; [1; 1]] /\
      reads_as (mexec go_grow s (newMIterator s) [] acts) 1 [1; 9] [[1]; [1; 9]]
    | _ => False end) by (vm_compute; auto).
  exists ex_fp, 1, 0, 0, app_keys, (mkvals (length app_keys)), 10000%Z. build_with app_keys 0 0 10000%Z s E X. exists s.
  split; [apply validb_input_ok; vm_compute; reflexivity|]. split; [apply (built_small _ _ _ _ _ _ _ _ b); [reflexivity|exact E]|exact X].
Qed.
Print Assumptions C67_append_refuted.
(** The same append with more bytes than the array of the key has room for changes nothing. *)
Example C67_example_outgrows : exists s, built ex_fp 1 0 0 app_keys (mkvals (length app_keys)) 10000 s /\
  let acts := [Move IFirst; ReadKey; Extend 0 (repeat 9 100); Move INext; ReadKey] in
  careful go_grow s (newMIterator s) [] acts = true /\ lexec s (newIterator s) acts = Ok [[1]; [1; 1]].
Proof.
  assert (X : match surf_build ex_fp 8 (newBuilder 1 0 0) app_keys (mkvals (length app_keys)) 10000 with
    | Ok (s, _) => let acts := [Move IFirst; ReadKey; Extend 0 (repeat 9 100); Move INext; ReadKey] in
      careful go_grow s (newMIterator s) [] acts = true /\ lexec s (newIterator s) acts = Ok [[1]; [1; 1]]
    | _ => False end) by (vm_compute; auto).
  build_with app_keys 0 0 10000%Z s E X. exists s. split; [apply (built_small _ _ _ _ _ _ _ _ b); [reflexivity|exact E]|exact X].
Qed.
