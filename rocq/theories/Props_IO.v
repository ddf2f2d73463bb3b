(** * Serialization to failing writers, truncated data, and filters that are filled again: properties C52-C55. *)
From Verif Require Import Base BitsModel VecModel VecProofs2 SurfSuffix SurfModel SurfSpec SurfTop SurfIter SurfMarshal SurfMarshalProofs SurfIO SurfIOSpec SurfIOProofs Props_Surf Props_Marshal.

(** The filters of the examples: with suffixes (5 hash and 9 real bits), and without any. *)
Notation ex_plain := (surf_build ex_fp 8 (newBuilder 2 0 0) ex_keys ex_vals 1000).
Lemma plain_valid : valid_input 2 0 0 ex_keys ex_vals.
Proof. apply validb_input_ok. vm_compute. reflexivity. Qed.
Lemma plain_built s : (exists b, ex_plain = Ok (s, b)) -> built ex_fp 2 0 0 ex_keys ex_vals 1000 s.
Proof.
  intros (b & E). exists 8, b. split; [|exact E]. apply Forall_forall. intros k Hk.
  assert (X : forallb (fun k => Nat.ltb (length k) 8) ex_keys = true) by reflexivity. rewrite forallb_forall in X. apply Nat.ltb_lt. auto.
Qed.
Lemma plain_fits s : (exists b, ex_plain = Ok (s, b)) -> fields_fit s.
Proof.
  intros (b & E).
  assert (X : forall l, forallb (fun n => N.ltb (N.of_nat n) 4294967296) l = true -> Forall fits32 l).
  { intros l Hl. apply Forall_forall. intros n Hn. rewrite forallb_forall in Hl. apply N.ltb_lt. exact (Hl n Hn). }
  vm_compute in E; apply Ok_eq in E; inversion E; subst; constructor; apply X; vm_compute; reflexivity.
Qed.

(** C52: Unmarshal of any proper prefix of the serialized form panics, whatever the filter
    held before ... *)
Theorem C52_truncated_rejected : forall fp vs h r keys vals hint s, valid_input vs h r keys vals ->
  built fp vs h r keys vals hint s -> fields_fit s ->
  forall old b missing, marshal s = b ++ missing -> missing <> [] -> unmarshal_into old b = Panic.
Proof. exact truncated_panics. Qed.
Print Assumptions C52_truncated_rejected.
(** ... and bytes after those that it needs do not matter, for any data that it accepts. *)
Theorem C52_trailing_ignored : forall old b s extra, unmarshal_into old b = Ok s -> unmarshal_into old (b ++ extra) = Ok s.
Proof. intros old b s extra. apply unmarshal_more. Qed.
Print Assumptions C52_trailing_ignored.
(** The last byte of 500 is padding: without it the data is refused all the same. *)
Example C52_example : exists s b, built ex_fp 2 5 9 ex_keys ex_vals 1000 s /\ fields_fit s /\ marshal s = b ++ [0] /\
  400 < length b /\ unmarshal b = Panic /\ unmarshal (marshal s) = Ok s.
Proof.
  assert (X : match ex_filter 1000 with Ok (s, _) => marshal s = removelast (marshal s) ++ [0] /\ Nat.ltb 400 (length (removelast (marshal s))) = true /\
    unmarshal (removelast (marshal s)) = Panic /\ unmarshal (marshal s) = Ok s | _ => False end) by (vm_compute; auto).
  destruct (ex_filter 1000) as [[s b]| |] eqn:E; [|destruct X|destruct X]. destruct X as (X1 & X2 & X3 & X4). exists s, (removelast (marshal s)).
  split; [apply ex_built; eauto|]. split; [apply (ex_fits 1000); eauto|]. split; [exact X1|]. split; [now apply Nat.ltb_lt|]. split; [exact X3|exact X4].
Qed.

(** C53: after Unmarshal every call answers as on the filter that was serialized, whatever
    the receiver held before; unless a filter without suffixes goes where suffix words
    are, the contents are the same. *)
Theorem C53_unmarshal_into : forall fp vs h r keys vals hint s, valid_input vs h r keys vals ->
  built fp vs h r keys vals hint s -> fields_fit s ->
  forall old rest, exists s', unmarshal_into old (marshal s ++ rest) = Ok s' /\ same_answers fp s s' /\
    (s' = s <-> h + r <> 0 \/ suffix_words old = []).
Proof. exact reuse_answers. Qed.
Print Assumptions C53_unmarshal_into.
Example C53_example : exists old s s', built ex_fp 2 5 9 ex_keys ex_vals 1000 old /\ built ex_fp 2 0 0 ex_keys ex_vals 1000 s /\ fields_fit s /\
  unmarshal_into old (marshal s) = Ok s' /\ s' <> s /\ surf_get ex_fp s' [97; 255] = Ok (Some [5; 105]) /\ suffix_words old <> [].
Proof.
  assert (X : match ex_filter 1000, ex_plain with Ok (old, _), Ok (s, _) =>
      match unmarshal_into old (marshal s) with Ok s' => suffix_words s = [] /\ Nat.eqb (length (suffix_words s')) 0 = false /\
        surf_get ex_fp s' [97; 255] = Ok (Some [5; 105]) /\ Nat.eqb (length (suffix_words old)) 0 = false | _ => False end
    | _, _ => False end) by (vm_compute; auto).
  destruct (ex_filter 1000) as [[old b]| |] eqn:E1; [|destruct X|destruct X]. destruct ex_plain as [[s b2]| |] eqn:E2; [|destruct X|destruct X].
  destruct (unmarshal_into old (marshal s)) as [s'| |] eqn:E3; [|destruct X|destruct X]. destruct X as (X1 & X2 & X3 & X4).
  exists old, s, s'. split; [apply ex_built; eauto|]. split; [apply plain_built; eauto|]. split; [apply plain_fits; eauto|]. split; [exact E3|].
  split; [intros Q; rewrite Q, X1 in X2; discriminate X2|]. split; [exact X3|]. intros Q. rewrite Q in X4. discriminate X4.
Qed.

(** C54: WriteTo makes one Write call per piece of the serialized form, in order, and stops
    at the first error, which it returns; this for any writer. *)
Theorem C54_write_errors : forall (W Err : Type) (write : W -> bytes -> W * option Err) s,
  exists pieces, concat pieces = marshal s /\ forall w, surf_writeTo write s w = feed write pieces w.
Proof. intros W Err write s. apply writeTo_feeds. Qed.
Print Assumptions C54_write_errors.
(** So a writer with room for n bytes gets the first n bytes, and the error is reported
    exactly if there are more. *)
Theorem C54_limited_writer : forall s n,
  surf_writeTo (limited n) s [] = (firstn n (marshal s), if Nat.ltb n (length (marshal s)) then Some tt else None).
Proof. exact writeTo_limited. Qed.
Print Assumptions C54_limited_writer.
Example C54_example : match ex_filter 1000 with
  | Ok (s, _) => snd (surf_writeTo (limited 100) s []) = Some tt /\ length (fst (surf_writeTo (limited 100) s [])) = 100 /\
      snd (surf_writeTo (limited (marshalSize s)) s []) = None /\ snd (surf_writeTo (limited (marshalSize s - 1)) s []) = Some tt
  | _ => False end.
Proof. vm_compute. auto. Qed.

(** C55: Marshal of a filter filled by Unmarshal does not always give the data back. *)
Definition kx : list bytes := [[1; 2]; [1; 3]; [2; 4]].
Definition vx : list bytes := [[1]; [2]; [3]].
Lemma kx_fuel : Forall (fun k => length k < 8) kx.
Proof. repeat constructor. Qed.
Theorem C55_marshal_again_refuted : exists fp vs keys vals hint old s s', valid_input vs 0 0 keys vals /\ valid_input vs 0 8 keys vals /\
  built fp vs 0 8 keys vals hint old /\ built fp vs 0 0 keys vals hint s /\ fields_fit s /\ unmarshal_into old (marshal s) = Ok s' /\
  marshal s' <> marshal s /\ length (marshal s') <> marshalSize s' /\ unmarshal (marshal s') = Panic.
Proof.
  assert (X : match surf_build ex_fp 8 (newBuilder 1 0 8) kx vx 1000, surf_build ex_fp 8 (newBuilder 1 0 0) kx vx 1000 with Ok (old, _), Ok (s, _) =>
      match unmarshal_into old (marshal s) with Ok s' => Nat.eqb (length (marshal s')) (length (marshal s)) = false /\
        Nat.eqb (length (marshal s')) (marshalSize s') = false /\ unmarshal (marshal s') = Panic | _ => False end
    | _, _ => False end) by (vm_compute; auto).
  destruct (surf_build ex_fp 8 (newBuilder 1 0 8) kx vx 1000) as [[old b]| |] eqn:E1; [|destruct X|destruct X].
  destruct (surf_build ex_fp 8 (newBuilder 1 0 0) kx vx 1000) as [[s b2]| |] eqn:E2; [|destruct X|destruct X].
  destruct (unmarshal_into old (marshal s)) as [s'| |] eqn:E3; [|destruct X|destruct X]. destruct X as (X1 & X2 & X3).
  exists ex_fp, 1, kx, vx, 1000%Z, old, s, s'. split; [now apply validb_input_ok|]. split; [now apply validb_input_ok|].
  split; [exists 8, b; split; [exact kx_fuel|exact E1]|]. split; [exists 8, b2; split; [exact kx_fuel|exact E2]|].
  split.
  { assert (Y : forall l, forallb (fun n => N.ltb (N.of_nat n) 4294967296) l = true -> Forall fits32 l).
    { intros l Hl. apply Forall_forall. intros n Hn. rewrite forallb_forall in Hl. apply N.ltb_lt. exact (Hl n Hn). }
    vm_compute in E2; apply Ok_eq in E2; inversion E2; subst; constructor; apply Y; vm_compute; reflexivity. }
  split; [exact E3|].
  split; [intros Q; rewrite Q, Nat.eqb_refl in X1; discriminate X1|]. split; [intros Q; rewrite Q, Nat.eqb_refl in X2; discriminate X2|]. exact X3.
Qed.
Print Assumptions C55_marshal_again_refuted.
(** It does exactly if the data has suffixes or the receiver had no suffix words ... *)
Theorem C55_marshal_again_partial : forall fp vs h r keys vals hint s, valid_input vs h r keys vals ->
  built fp vs h r keys vals hint s -> fields_fit s ->
  forall old rest s', unmarshal_into old (marshal s ++ rest) = Ok s' ->
  (marshal s' = marshal s <-> h + r <> 0 \/ suffix_words old = []).
Proof. exact reuse_marshal. Qed.
Print Assumptions C55_marshal_again_partial.
(** ... otherwise Marshal writes 8 bytes more than MarshalSize for each of these words. *)
Theorem C55_size_off : forall fp vs h r keys vals hint s, valid_input vs h r keys vals ->
  built fp vs h r keys vals hint s -> fields_fit s ->
  forall old rest s', h + r = 0 -> unmarshal_into old (marshal s ++ rest) = Ok s' ->
  marshalSize s' = marshalSize s /\ length (marshal s') = marshalSize s + 8 * length (suffix_words old).
Proof. exact reuse_size. Qed.
Print Assumptions C55_size_off.
