(** * SuRF serialization: properties C24 and C25. *)
From Verif Require Import Base BitsModel VecModel VecProofs2 SurfSuffix SurfModel SurfSpec SurfTop SurfMarshal SurfMarshalProofs Props_Surf.

Lemma ex_fits hint s : (exists b, ex_filter hint = Ok (s, b)) -> hint = 1000%Z \/ hint = 0%Z -> fields_fit s.
Proof.
  intros (b & E) H.
  assert (X : forall l, forallb (fun n => N.ltb (N.of_nat n) 4294967296) l = true -> Forall fits32 l).
  { intros l Hl. apply Forall_forall. intros n Hn. rewrite forallb_forall in Hl. apply N.ltb_lt. exact (Hl n Hn). }
  destruct H as [-> | ->]; vm_compute in E; apply Ok_eq in E; inversion E; subst; constructor; apply X; vm_compute; reflexivity.
Qed.

(** C24: identical contents, hence identical answers to every query. *)
Theorem C24_unmarshal_marshal : forall fp vs h r keys vals hint s, valid_input vs h r keys vals ->
  built fp vs h r keys vals hint s -> fields_fit s -> forall rest, unmarshal (marshal s ++ rest) = Ok s.
Proof. exact built_roundtrip. Qed.
Print Assumptions C24_unmarshal_marshal.
Example C24_example : exists s, built ex_fp 2 5 9 ex_keys ex_vals 1000 s /\ fields_fit s /\
  unmarshal (marshal s ++ [1; 2; 3]) = Ok s /\ 400 < length (marshal s).
Proof.
  assert (X : match ex_filter 1000 with Ok (s, _) => unmarshal (marshal s ++ [1; 2; 3]) = Ok s /\ Nat.ltb 400 (length (marshal s)) = true | _ => False end) by (vm_compute; auto).
  destruct (ex_filter 1000) as [[s b]| |] eqn:E; [|destruct X|destruct X]. destruct X as [X1 X2]. exists s.
  split; [apply ex_built; eauto|]. split; [apply (ex_fits 1000); eauto|]. split; [exact X1|]. now apply Nat.ltb_lt.
Qed.

(** C25: the offset MarshalNoValueSize is where the values can be read back from. *)
Theorem C25_marshal_sizes : forall fp vs h r keys vals hint s, valid_input vs h r keys vals ->
  built fp vs h r keys vals hint s -> fields_fit s ->
  length (marshal s) = marshalSize s /\ marshalSize s mod 8 = 0 /\
  vv_read (skipn (marshalNoValueSize s) (marshal s)) = Ok (ld_values (s_ld s), vv_write (ls_values (s_ls s))) /\
  marshalNoValueSize s <= marshalSize s.
Proof. exact built_sizes. Qed.
Print Assumptions C25_marshal_sizes.
Example C25_example : exists s, built ex_fp 2 5 9 ex_keys ex_vals 0 s /\ fields_fit s /\
  length (marshal s) = marshalSize s /\ 0 < marshalNoValueSize s < marshalSize s.
Proof.
  assert (X : match ex_filter 0 with Ok (s, _) => length (marshal s) = marshalSize s /\ Nat.ltb 0 (marshalNoValueSize s) && Nat.ltb (marshalNoValueSize s) (marshalSize s) = true | _ => False end) by (vm_compute; auto).
  destruct (ex_filter 0) as [[s b]| |] eqn:E; [|destruct X|destruct X]. destruct X as [X1 X2]. exists s.
  split; [apply ex_built; eauto|]. split; [apply (ex_fits 0); eauto|]. split; [exact X1|]. apply andb_true_iff in X2 as [X2 X3]. split; now apply Nat.ltb_lt.
Qed.
