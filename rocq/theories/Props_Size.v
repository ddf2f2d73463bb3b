(** * The size hint of Build and the size of the filter: properties C40-C42. *)
From Verif Require Import Base BitsModel VecModel SurfModel SurfSpec SurfTop SurfSizeSpec SurfSize Props_Surf.

(** The hint is non-negative and the sizes fit the integers Build computes with. *)
Definition hint_ok (n : nat) (hint : Z) : Prop :=
  (N.of_nat n < 8388608)%N /\ (0 <= hint)%Z /\ (Z.of_nat n * hint < 18446744073709551616)%Z.

(** C40: with a dense level the filter takes at most [hint + 1] bits per key, and 7. *)
Theorem C40_size_hint_partial : forall fp vs h r keys vals hint s, valid_input vs h r keys vals ->
  built fp vs h r keys vals hint s -> hint_ok (length keys) hint -> 0 < ld_height (s_ld s) ->
  (Z.of_nat (encoded_bits s) <= Z.of_nat (length keys) * (hint + 1) + 7)%Z.
Proof. intros fp vs h r keys vals hint s V B (A1 & A2 & A3) D. exact (size_hint fp vs h r keys vals hint s V B A1 A2 A3 D). Qed.
Print Assumptions C40_size_hint_partial.

(** It may take more than [hint] bits per key. *)
Theorem C40_size_hint_refuted : exists keys vals hint s, valid_input 1 0 0 keys vals /\
  built ex_fp 1 0 0 keys vals hint s /\ hint_ok (length keys) hint /\ 0 < ld_height (s_ld s) /\
  (Z.of_nat (length keys) * hint < Z.of_nat (encoded_bits s))%Z.
Proof.
  set (ks := [[97; 97]; [97; 98]; [98]]). set (vals := [[1]; [2]; [3]]).
  destruct (surf_build ex_fp 3 (newBuilder 1 0 0) ks vals 178) as [[s b]| |] eqn:E; [|exfalso; vm_compute in E; discriminate..].
  exists ks, vals, 178%Z, s. split; [apply validb_input_ok; reflexivity|]. split.
  { exists 3, b. split; [repeat constructor|exact E]. }
  split; [vm_compute; intuition discriminate|].
  assert (X : match surf_build ex_fp 3 (newBuilder 1 0 0) ks vals 178 with
    | Ok (s, _) => Nat.ltb 0 (ld_height (s_ld s)) && (Z.of_nat (length ks) * 178 <? Z.of_nat (encoded_bits s))%Z | _ => false end = true) by (vm_compute; reflexivity).
  rewrite E in X. apply andb_true_iff in X as [X1 X2]. split; [now apply Nat.ltb_lt|now apply Z.ltb_lt].
Qed.
Print Assumptions C40_size_hint_refuted.

Example C40_example : match ex_filter 120 with
  | Ok (s, _) => Nat.ltb 0 (ld_height (s_ld s)) && (Z.of_nat (encoded_bits s) <=? 10 * 121 + 7)%Z
  | _ => false end = true.
Proof. vm_compute. reflexivity. Qed.

(** C41: a layout with more dense levels would take more than [hint] bits per key. *)
Theorem C41_dense_maximal : forall fp vs h r keys vals hint s hint' s', valid_input vs h r keys vals ->
  built fp vs h r keys vals hint s -> built fp vs h r keys vals hint' s' ->
  hint_ok (length keys) hint -> hint_ok (length keys) hint' ->
  ld_height (s_ld s) < ld_height (s_ld s') ->
  (Z.of_nat (length keys) * hint < Z.of_nat (encoded_bits s'))%Z.
Proof.
  intros fp vs h r keys vals hint s hint' s' V B B' (A1 & A2 & A3) (_ & A2' & A3') L.
  exact (size_maximal fp vs h r keys vals hint s hint' s' V B B' A1 A2 A3 A2' A3' L).
Qed.
Print Assumptions C41_dense_maximal.

(** A larger hint never gives fewer dense levels. *)
Theorem C41_dense_monotone : forall fp vs h r keys vals hint s hint' s', valid_input vs h r keys vals ->
  built fp vs h r keys vals hint s -> built fp vs h r keys vals hint' s' ->
  hint_ok (length keys) hint -> hint_ok (length keys) hint' -> (hint <= hint')%Z ->
  ld_height (s_ld s) <= ld_height (s_ld s').
Proof.
  intros fp vs h r keys vals hint s hint' s' V B B' (A1 & A2 & A3) (_ & A2' & A3') L.
  exact (size_mono fp vs h r keys vals hint s hint' s' V B B' A1 (conj A2 L) A3').
Qed.
Print Assumptions C41_dense_monotone.

(** The non-negativity is needed: a negative hint is read as a huge one. *)
Theorem C41_negative_hint_refuted : exists keys vals s s', valid_input 1 0 0 keys vals /\
  built ex_fp 1 0 0 keys vals (-1) s /\ built ex_fp 1 0 0 keys vals 0 s' /\ ld_height (s_ld s') < ld_height (s_ld s).
Proof.
  set (ks := [[97; 97]; [97; 98]; [98]]). set (vals := [[1]; [2]; [3]]).
  destruct (surf_build ex_fp 3 (newBuilder 1 0 0) ks vals (-1)) as [[s b]| |] eqn:E; [|exfalso; vm_compute in E; discriminate..].
  destruct (surf_build ex_fp 3 (newBuilder 1 0 0) ks vals 0) as [[s' b']| |] eqn:E'; [|exfalso; vm_compute in E'; discriminate..].
  exists ks, vals, s, s'. split; [apply validb_input_ok; reflexivity|]. split; [exists 3, b; split; [repeat constructor|exact E]|].
  split; [exists 3, b'; split; [repeat constructor|exact E']|].
  assert (X : match surf_build ex_fp 3 (newBuilder 1 0 0) ks vals (-1), surf_build ex_fp 3 (newBuilder 1 0 0) ks vals 0 with
    | Ok (s, _), Ok (s', _) => Nat.ltb (ld_height (s_ld s')) (ld_height (s_ld s)) | _, _ => false end = true) by (vm_compute; reflexivity).
  rewrite E, E' in X. now apply Nat.ltb_lt.
Qed.
Print Assumptions C41_negative_hint_refuted.

Example C41_example : match ex_filter 60, ex_filter 120, ex_filter 1000 with
  | Ok (s1, _), Ok (s2, _), Ok (s3, _) => Nat.ltb (ld_height (s_ld s1)) (ld_height (s_ld s2)) && Nat.ltb (ld_height (s_ld s2)) (ld_height (s_ld s3)) &&
     (10 * 60 <? Z.of_nat (encoded_bits s2))%Z && (10 * 120 <? Z.of_nat (encoded_bits s3))%Z
  | _, _, _ => false end = true.
Proof. vm_compute. reflexivity. Qed.

(** C42: without a dense level, a constant number of bits per key besides the suffixes,
    and the bytes of shared paths, which are at most those of the keys. *)
Theorem C42_sparse_linear : forall fp vs h r keys vals hint s, valid_input vs h r keys vals ->
  built fp vs h r keys vals hint s -> ld_height (s_ld s) = 0 ->
  encoded_bits s <= length keys * (22 + h + r) + 8 * length (concat keys).
Proof. exact size_linear. Qed.
Print Assumptions C42_sparse_linear.

Example C42_example : match ex_filter 0 with
  | Ok (s, _) => Nat.eqb (ld_height (s_ld s)) 0 && Nat.leb (encoded_bits s) (10 * (22 + 5 + 9) + 8 * length (concat ex_keys))
  | _ => false end = true.
Proof. vm_compute. reflexivity. Qed.
