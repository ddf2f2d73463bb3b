(** * Proofs about WriteTo with failing writers, truncated data and Unmarshal into a used filter. *)
From Verif Require Import Base BitsModel VecModel VecProofs2 SurfSuffix SurfModel SurfSpec SurfTrie SurfEnc SurfBuildTop SurfTop SurfIter SurfMarshal SurfMarshalProofs SurfIO SurfIOSpec.

(* ------------------------------------------------------------------ *)
(** ** Writers *)
Section Feed.
Context {W Err : Type} (write : W -> bytes -> W * option Err).

(** [f] feeds the writer with pieces that make up [b]. *)
Definition feeds (b : bytes) (f : W -> W * option Err) : Prop :=
  exists ps, concat ps = b /\ forall w, f w = feed write ps w.

Lemma feed_app ps qs w : feed write (ps ++ qs) w = match feed write ps w with (w', None) => feed write qs w' | r => r end.
Proof.
  revert w. induction ps as [|p ps IH]; intros w; cbn [app feed]; [reflexivity|].
  destruct (write w p) as [w' [e|]]; [reflexivity|]. apply IH.
Qed.
Lemma feeds_put b : feeds b (put write b).
Proof.
  exists [b]. split; [cbn; apply app_nil_r|]. intros w. unfold put. cbn [feed]. destruct (write w b) as [w' [e|]]; reflexivity.
Qed.
Lemma feeds_then a b f g : feeds a f -> feeds b g -> feeds (a ++ b) (andThen f g).
Proof.
  intros (ps & <- & F) (qs & <- & G). exists (ps ++ qs). split; [apply concat_app|]. intros w. unfold andThen.
  rewrite feed_app, F. destruct (feed write ps w) as [w' [e|]]; [reflexivity|apply G].
Qed.
Ltac fd := repeat first [apply feeds_put | apply feeds_then].

Lemma vv_feeds v : feeds (vv_write v) (vv_writeTo write v).
Proof. unfold vv_write, vv_writeTo. fd. Qed.
Lemma sv_feeds v : feeds (sv_write v) (sv_writeTo write v).
Proof. unfold sv_write, sv_writeTo. fd. Qed.
Lemma rv_feeds v : feeds (rv_write v) (rv_writeTo write v).
Proof. unfold rv_write, rv_writeTo. fd. Qed.
Lemma lab_feeds v : feeds (lab_write v) (lab_writeTo write v).
Proof. unfold lab_write, lab_writeTo. fd. Qed.
Lemma xv_feeds v : feeds (xv_write v) (xv_writeTo write v).
Proof. unfold xv_write, xv_writeTo. fd. Qed.
Lemma pv_feeds v : feeds (pv_write v) (pv_writeTo write v).
Proof.
  unfold pv_write, pv_writeTo. apply feeds_then; [apply rv_feeds|].
  rewrite (app_assoc (put32 _) (put32 _)). fd.
Qed.
Lemma ld_feeds v : feeds (ld_write v) (ld_writeTo write v).
Proof. unfold ld_write, ld_writeTo. repeat first [apply feeds_put | apply rv_feeds | apply xv_feeds | apply pv_feeds | apply feeds_then]. Qed.
Lemma ls_feeds v : feeds (ls_write v) (ls_writeTo write v).
Proof.
  unfold ls_write, ls_writeTo.
  repeat first [apply feeds_put | apply lab_feeds | apply rv_feeds | apply sv_feeds | apply xv_feeds | apply pv_feeds | apply feeds_then].
Qed.
Theorem writeTo_feeds s : exists pieces, concat pieces = marshal s /\ forall w, surf_writeTo write s w = feed write pieces w.
Proof.
  change (feeds (marshal s) (surf_writeTo write s)). unfold marshal, surf_writeTo.
  repeat first [apply ld_feeds | apply ls_feeds | apply vv_feeds | apply feeds_then].
Qed.
End Feed.

Lemma feed_limited n ps : forall got, length got <= n ->
  feed (limited n) ps got = (firstn n (got ++ concat ps), if Nat.ltb n (length got + length (concat ps)) then Some tt else None).
Proof.
  induction ps as [|p ps IH]; intros got L; cbn [feed concat].
  - rewrite app_nil_r, firstn_all2 by lia. cbn [length]. destruct (Nat.ltb_spec n (length got + 0)); [lia|reflexivity].
  - unfold limited at 1. rewrite app_length. destruct (Nat.leb_spec (length got + length p) n) as [H|H].
    + rewrite IH by (rewrite app_length; lia). rewrite app_length, <- app_assoc, !Nat.add_assoc. reflexivity.
    + destruct (Nat.ltb_spec n (length got + (length p + length (concat ps)))); [|lia].
      f_equal. rewrite firstn_app. rewrite (firstn_all2 got) by lia. f_equal.
      rewrite firstn_app. replace (n - length got - length p) with 0 by lia. cbn [firstn]. now rewrite app_nil_r.
Qed.
Theorem writeTo_limited s n : surf_writeTo (limited n) s [] = (firstn n (marshal s), if Nat.ltb n (length (marshal s)) then Some tt else None).
Proof.
  destruct (writeTo_feeds (limited n) s) as (ps & E & F). rewrite F, feed_limited by (cbn [length]; lia). now rewrite E.
Qed.

(* ------------------------------------------------------------------ *)
(** ** Readers look at the bytes they consume and at no others *)

Definition reader {A} (r : bytes -> res (A * bytes)) : Prop :=
  (forall b, r b <> Hang) /\
  forall b x rest, r b = Ok (x, rest) -> (exists p, b = p ++ rest) /\ forall e, r (b ++ e) = Ok (x, rest ++ e).

Lemma get32_more b n e : get32 b = Ok n -> get32 (b ++ e) = Ok n.
Proof. destruct b as [|? [|? [|? [|? ?]]]]; cbn [get32 app]; try discriminate. auto. Qed.
Lemma get32_nohang b : get32 b <> Hang.
Proof. destruct b as [|? [|? [|? [|? ?]]]]; discriminate. Qed.
Lemma from_more (b : bytes) i r e : slice_from b i = Ok r -> slice_from (b ++ e) i = Ok (r ++ e).
Proof.
  unfold slice_from. destruct (Nat.leb_spec i (length b)); [|discriminate]. intros H1. apply Ok_eq in H1. subst r.
  rewrite app_length. destruct (Nat.leb_spec i (length b + length e)); [|lia]. f_equal. rewrite skipn_app.
  replace (i - length b) with 0 by lia. reflexivity.
Qed.
Lemma from_nohang (b : bytes) i : slice_from b i <> Hang.
Proof. unfold slice_from. destruct (Nat.leb i (length b)); discriminate. Qed.
Lemma from_suffix (b : bytes) i r : slice_from b i = Ok r -> exists p, b = p ++ r.
Proof. unfold slice_from. destruct (Nat.leb i (length b)); [|discriminate]. intros H. apply Ok_eq in H. subst r. exists (firstn i b). symmetry. apply firstn_skipn. Qed.
Lemma slice_more (b : bytes) i j r e : slice b i j = Ok r -> slice (b ++ e) i j = Ok r.
Proof.
  unfold slice. destruct (Nat.leb_spec i j); [|discriminate]. destruct (Nat.leb_spec j (length b)); [|discriminate]. cbn [andb].
  intros E. apply Ok_eq in E. subst r. rewrite app_length. destruct (Nat.leb_spec j (length b + length e)); [|lia]. f_equal.
  rewrite skipn_app, firstn_app, skipn_length. replace (j - i - (length b - i)) with 0 by lia. cbn [firstn]. apply app_nil_r.
Qed.
Lemma slice_nohang (b : bytes) i j : slice b i j <> Hang.
Proof. unfold slice. destruct (_ && _); discriminate. Qed.
Lemma idx_more (b : bytes) i r e : idx b i = Ok r -> idx (b ++ e) i = Ok r.
Proof.
  unfold idx. destruct (nth_error b i) eqn:E; [|discriminate]. intros H. apply Ok_eq in H. subst.
  rewrite nth_error_app1; [now rewrite E|]. apply nth_error_Some. now rewrite E.
Qed.
Lemma idx_nohang (b : bytes) i : idx b i <> Hang.
Proof. unfold idx. destruct (nth_error b i); discriminate. Qed.
Lemma byte_type_nohang b : byte_type b <> Hang.
Proof. destruct b as [|[|[|[|]]]]; discriminate. Qed.

Lemma bind_nohang {A B} (a : res A) (f : A -> res B) : a <> Hang -> (forall x, a = Ok x -> f x <> Hang) -> bind a f <> Hang.
Proof. destruct a; cbn [bind]; auto. discriminate. Qed.

Ltac nh := repeat first [apply get32_nohang | apply from_nohang | apply slice_nohang | apply idx_nohang | apply byte_type_nohang | apply bind_nohang | progress intros
  | match goal with |- (if ?c then _ else _) <> _ => destruct c | |- (let '(_, _) := ?p in _) <> _ => destruct p | |- Ok _ <> _ => discriminate | |- Panic <> _ => discriminate end].
(** Take the steps of the reader in [H] one by one, then those of the reader in the goal. *)
Ltac rd H := repeat (cbv zeta in H; match type of H with
  | bind ?a _ = Ok _ => let E := fresh "E" in destruct a eqn:E; cbn [bind] in H; [|discriminate H|discriminate H]
  | (if ?c then Panic else _) = Ok _ => let C := fresh "C" in destruct c eqn:C; [discriminate H|]
  | (let '(_, _) := ?p in _) = Ok _ => destruct p
  end).
Ltac more := repeat (cbv zeta; match goal with
  | E : ?a = Ok _ |- bind ?a _ = _ => rewrite E; cbn [bind]
  | |- bind _ _ = _ => first [erewrite get32_more by eassumption | erewrite from_more by eassumption | erewrite slice_more by eassumption | erewrite idx_more by eassumption]; cbn [bind]
  | C : ?c = false |- (if ?c then Panic else _) = _ => rewrite C
  end).

Lemma vv_reader : reader vv_read.
Proof.
  split; [intros b; unfold vv_read; nh|]. intros b x rest H. unfold vv_read in *. rd H. apply Ok_eq in H. inversion H; subst.
  split; [eapply from_suffix; eassumption|]. intros e. more. reflexivity.
Qed.
Lemma lab_reader : reader lab_read.
Proof.
  split; [intros b; unfold lab_read; nh|]. intros b x rest H. unfold lab_read in *. rd H. apply Ok_eq in H. inversion H; subst.
  split; [eapply from_suffix; eassumption|]. intros e. more. reflexivity.
Qed.
Lemma sv_reader : reader sv_read.
Proof.
  split; [intros b; unfold sv_read; nh|]. intros b x rest H. unfold sv_read in *. rd H. apply Ok_eq in H. inversion H; subst.
  split; [eapply from_suffix; eassumption|]. intros e. more. reflexivity.
Qed.
Lemma rv_reader : reader rv_read.
Proof.
  split; [intros b; unfold rv_read; nh|]. intros b x rest H. unfold rv_read in *. rd H. apply Ok_eq in H. inversion H; subst.
  split; [eapply from_suffix; eassumption|]. intros e. more. reflexivity.
Qed.
Lemma pv_reader : reader pv_read.
Proof.
  split; [intros b; unfold pv_read; apply bind_nohang; [apply rv_reader|nh]|]. intros b x rest H. unfold pv_read in *. rd H. apply Ok_eq in H. inversion H; subst.
  split; [eapply from_suffix; eassumption|]. intros e. apply rv_reader in E as [_ E]. rewrite E. cbn [bind]. more. reflexivity.
Qed.
Lemma xv_reader old : reader (xv_read_into old).
Proof.
  split; [intros b; unfold xv_read_into; nh|]. intros b x rest H. unfold xv_read_into in *. rd H. apply Ok_eq in H. inversion H; subst.
  split; [eapply from_suffix; eassumption|]. intros e. more.
  match type of E6 with context [suffixType_eqb ?t NoneSuffix] => destruct (suffixType_eqb t NoneSuffix) end.
  - apply Ok_eq in E6. inversion E6; subst. cbn [bind]. more. reflexivity.
  - rd E6. apply Ok_eq in E6. inversion E6; subst. more. reflexivity.
Qed.

Lemma suffix_trans {A} (a b c : list A) : (exists p, a = p ++ b) -> (exists p, b = p ++ c) -> exists p, a = p ++ c.
Proof. intros (p & ->) (q & ->). exists (p ++ q). apply app_assoc. Qed.
Lemma suffix_size (b c : bytes) e : (exists p, b = p ++ c) -> length (b ++ e) - length (c ++ e) = length b - length c.
Proof. intros (p & ->). rewrite !app_length. lia. Qed.

Lemma ld_reader old : reader (ld_read_into old).
Proof.
  split.
  { intros b. unfold ld_read_into. repeat first [apply rv_reader | apply xv_reader | apply pv_reader | progress nh]. }
  intros b x rest H. unfold ld_read_into in *. rd H. apply Ok_eq in H. inversion H; subst.
  split; [eapply from_suffix; eassumption|]. intros e. more.
  apply rv_reader in E1 as [S1 E1]. rewrite E1. cbn [bind]. apply rv_reader in E2 as [S2 E2]. rewrite E2. cbn [bind].
  apply rv_reader in E3 as [S3 E3]. rewrite E3. cbn [bind]. apply xv_reader in E4 as [S4 E4]. rewrite E4. cbn [bind].
  apply pv_reader in E5 as [S5 E5]. rewrite E5. cbn [bind].
  rewrite suffix_size by eauto 9 using suffix_trans, from_suffix. more. reflexivity.
Qed.
Lemma ls_reader old : reader (ls_read_into old).
Proof.
  split.
  { intros b. unfold ls_read_into. repeat first [apply lab_reader | apply rv_reader | apply sv_reader | apply xv_reader | apply pv_reader | progress nh]. }
  intros b x rest H. unfold ls_read_into in *. rd H. apply Ok_eq in H. inversion H; subst.
  split; [eapply from_suffix; eassumption|]. intros e. more.
  apply lab_reader in E7 as [S1 E7]. rewrite E7. cbn [bind]. apply rv_reader in E8 as [S2 E8]. rewrite E8. cbn [bind].
  apply sv_reader in E9 as [S3 E9]. rewrite E9. cbn [bind]. apply xv_reader in E10 as [S4 E10]. rewrite E10. cbn [bind].
  apply pv_reader in E11 as [S5 E11]. rewrite E11. cbn [bind].
  rewrite suffix_size.
  2: { eapply suffix_trans; [eapply from_suffix; exact E0|]. eapply suffix_trans; [eapply from_suffix; exact E2|].
       eapply suffix_trans; [eapply from_suffix; exact E4|]. eapply suffix_trans; [eapply from_suffix; exact E6|].
       eapply suffix_trans; [exact S1|]. eapply suffix_trans; [exact S2|]. eapply suffix_trans; [exact S3|]. eapply suffix_trans; [exact S4|]. exact S5. }
  more. reflexivity.
Qed.

(** Unmarshal together with the bytes that it leaves. *)
Definition unmarshal_rest (old : surf) (b : bytes) : res (surf * bytes) :=
  ' (ld, b) <- ld_read_into (s_ld old) b ;;
  ' (ls, b) <- ls_read_into (s_ls old) b ;;
  ' (dv, b) <- vv_read b ;;
  ' (sv, b) <- vv_read b ;;
  Ok (mkSurf (ld dv) (ls sv), b).
Lemma unmarshal_into_rest old b : unmarshal_into old b = (' (s, _) <- unmarshal_rest old b ;; Ok s).
Proof.
  unfold unmarshal_into, unmarshal_rest. destruct (ld_read_into _ b) as [[f b1]| |]; cbn [bind]; [|reflexivity..].
  destruct (ls_read_into _ b1) as [[g b2]| |]; cbn [bind]; [|reflexivity..].
  destruct (vv_read b2) as [[v b3]| |]; cbn [bind]; [|reflexivity..]. destruct (vv_read b3) as [[w b4]| |]; reflexivity.
Qed.
Lemma surf_reader old : reader (unmarshal_rest old).
Proof.
  split.
  { intros b. unfold unmarshal_rest. repeat first [apply ld_reader | apply ls_reader | apply vv_reader | progress nh]. }
  intros b x rest H. unfold unmarshal_rest in *. rd H. apply Ok_eq in H. inversion H; subst.
  apply ld_reader in E as [S1 E]. apply ls_reader in E0 as [S2 E0]. apply vv_reader in E1 as [S3 E1]. apply vv_reader in E2 as [S4 E2].
  split; [eauto using suffix_trans|]. intros e. rewrite E. cbn [bind]. rewrite E0. cbn [bind]. rewrite E1. cbn [bind]. rewrite E2. reflexivity.
Qed.

Theorem unmarshal_more old b s e : unmarshal_into old b = Ok s -> unmarshal_into old (b ++ e) = Ok s.
Proof.
  rewrite !unmarshal_into_rest. intros H. rd H. apply Ok_eq in H. subst. apply surf_reader in E as [_ E]. now rewrite E.
Qed.

(* ------------------------------------------------------------------ *)
(** ** What is left of a used filter *)

(** The suffix words of [old] survive in a filter without suffixes. *)
Definition stale (old v : suffixVector) : suffixVector :=
  if suffixType_eqb (xv_type v) NoneSuffix then mkXV (mkBV (bv_numBits (xv_bv v)) (bv_bits (xv_bv old))) (xv_type v) (xv_hashLen v) (xv_realLen v) else v.
Definition stale_ld (old ld : loudsDense) : loudsDense :=
  mkLD (ld_label ld) (ld_hasChild ld) (ld_isPrefix ld) (stale (ld_suffixes old) (ld_suffixes ld)) (ld_values ld) (ld_prefix ld) (ld_height ld).
Definition stale_ls (old ls : loudsSparse) : loudsSparse :=
  mkLS (ls_height ls) (ls_startLevel ls) (ls_denseNodeCount ls) (ls_denseChildCount ls) (ls_label ls) (ls_hasChild ls) (ls_louds ls)
    (stale (ls_suffixes old) (ls_suffixes ls)) (ls_values ls) (ls_prefix ls).
Definition stale_surf (old s : surf) : surf := mkSurf (stale_ld (s_ld old) (s_ld s)) (stale_ls (s_ls old) (s_ls s)).

Lemma xv_into old buf : xv_read_into old buf = (' (v, rest) <- xv_read buf ;; Ok (stale old v, rest)).
Proof.
  unfold xv_read_into, xv_read. destruct (get32 buf); cbn [bind]; [|reflexivity..]. destruct (idx buf 4); cbn [bind]; [|reflexivity..].
  destruct (byte_type _) as [t| |]; cbn [bind]; [|reflexivity..]. destruct (slice_from buf 5) as [b1| |]; cbn [bind]; [|reflexivity..].
  destruct (get32 b1); cbn [bind]; [|reflexivity..]. destruct (slice_from buf 9) as [b2| |]; cbn [bind]; [|reflexivity..].
  destruct (get32 b2); cbn [bind]; [|reflexivity..]. destruct (suffixType_eqb t NoneSuffix) eqn:T; cbn [bind].
  - destruct (slice_from buf (align 13)); cbn [bind]; [|reflexivity..]. unfold stale. cbn [xv_type]. rewrite T. reflexivity.
  - destruct (slice buf 13 _); cbn [bind]; [|reflexivity..]. destruct (slice_from buf _); cbn [bind]; [|reflexivity..].
    unfold stale. cbn [xv_type]. rewrite T. reflexivity.
Qed.
Ltac step := match goal with |- bind ?a _ = bind (bind ?a _) _ => destruct a as [| |]; cbn [bind]; [|reflexivity..]
  | |- bind (bind ?a _) _ = bind (bind ?a _) _ => destruct a as [| |]; cbn [bind]; [|reflexivity..]
  | |- (let '(_, _) := ?p in _) = _ => destruct p
  | |- bind (let '(_, _) := ?p in _) _ = _ => destruct p; cbn [bind]
  end.
Lemma ld_into old buf : ld_read_into old buf = (' (f, rest) <- ld_read buf ;; Ok (fun v => stale_ld old (f v), rest)).
Proof. unfold ld_read_into, ld_read. rewrite ?xv_into. repeat step. rewrite xv_into. repeat step. reflexivity. Qed.
Lemma ls_into old buf : ls_read_into old buf = (' (f, rest) <- ls_read buf ;; Ok (fun v => stale_ls old (f v), rest)).
Proof. unfold ls_read_into, ls_read. repeat step. rewrite xv_into. repeat step. reflexivity. Qed.
Theorem unmarshal_stale old b : unmarshal_into old b = (s <- unmarshal b ;; Ok (stale_surf old s)).
Proof.
  unfold unmarshal_into, unmarshal. rewrite ld_into. repeat step. rewrite ls_into. repeat step. reflexivity.
Qed.

Lemma unmarshal_rest_marshal old s rest : ld_wf (s_ld s) -> ls_wf (s_ls s) -> unmarshal_rest old (marshal s ++ rest) = Ok (stale_surf old s, rest).
Proof.
  intros W1 W2. unfold unmarshal_rest, marshal. rewrite <- !app_assoc, ld_into.
  destruct (ld_roundtrip (s_ld s) (ls_write (s_ls s) ++ vv_write (ld_values (s_ld s)) ++ vv_write (ls_values (s_ls s)) ++ rest) W1) as (f & E1 & F1). rewrite E1. cbn [bind].
  rewrite ls_into.
  destruct (ls_roundtrip (s_ls s) (vv_write (ld_values (s_ld s)) ++ vv_write (ls_values (s_ls s)) ++ rest) W2) as (g & E2 & F2). rewrite E2. cbn [bind].
  rewrite vv_roundtrip by apply W1. cbn [bind]. rewrite vv_roundtrip by apply W2. cbn [bind]. rewrite F1, F2. reflexivity.
Qed.

Lemma built_wf fp vs h r keys vals hint s : valid_input vs h r keys vals -> built fp vs h r keys vals hint s -> fields_fit s ->
  ld_wf (s_ld s) /\ ls_wf (s_ls s).
Proof.
  intros V B F. destruct (built_rep _ _ _ _ _ _ _ _ V B) as (cut & R & _).
  exact (surf_wf _ (mkcfg vs h r) _ _ _ (v_suffix _ _ _ _ _ V) R F).
Qed.

Theorem truncated_panics fp vs h r keys vals hint s : valid_input vs h r keys vals -> built fp vs h r keys vals hint s -> fields_fit s ->
  forall old b e, marshal s = b ++ e -> e <> [] -> unmarshal_into old b = Panic.
Proof.
  intros V B F old b e M N. destruct (built_wf fp vs h r keys vals hint s V B F) as [W1 W2].
  rewrite unmarshal_into_rest. destruct (unmarshal_rest old b) as [[s' rest]| |] eqn:E; cbn [bind]; [|reflexivity|].
  - exfalso. apply surf_reader in E as [_ E]. specialize (E e). rewrite <- M in E.
    pose proof (unmarshal_rest_marshal old s [] W1 W2) as E'. rewrite app_nil_r, E in E'. apply Ok_eq in E'. assert (Q : rest ++ e = []) by (exact (f_equal snd E')).
    apply app_eq_nil in Q. tauto.
  - now destruct (proj1 (surf_reader old) b).
Qed.

(* ------------------------------------------------------------------ *)
(** ** The words left over are never looked at *)

Lemma bind_ext {A B} (a a' : res A) (f g : A -> res B) : a = a' -> (forall x, f x = g x) -> bind a f = bind a' g.
Proof. intros -> H. destruct a'; cbn [bind]; auto. Qed.

(** Vectors between which no comparison tells. *)
Definition xeq (fp : bytes -> N) (x y : suffixVector) : Prop :=
  (forall i k l, checkEquality fp x i k l = checkEquality fp y i k l) /\ (forall k i l, suffix_compare x k i l = suffix_compare y k i l).
Lemma xeq_stale fp old v : (xv_type v = NoneSuffix -> bv_numBits (xv_bv v) = 0) -> xeq fp v (stale old v).
Proof.
  intros H. unfold stale. destruct (xv_type v) eqn:T; cbn [suffixType_eqb]; [|split; reflexivity..].
  specialize (H eq_refl). split; intros.
  - unfold checkEquality. cbn [xv_type]. rewrite T. reflexivity.
  - unfold suffix_compare. cbn [xv_type xv_bv bv_numBits]. rewrite H. reflexivity.
Qed.

Ltac ext := repeat first [reflexivity
  | match goal with
    | |- bind _ _ = bind _ _ => apply bind_ext; [|intros]
    | |- (if ?c then _ else _) = (if ?c' then _ else _) => change c' with c; destruct c
    | |- (let '(_, _) := ?p in _) = _ => destruct p
    | |- match ?p with _ => _ end = match ?p with _ => _ end => destruct p
    end].


Section CongD.
Context (fp : bytes -> N) (l : loudsDense) (x : suffixVector) (X : xeq fp (ld_suffixes l) x).
Let l' := mkLD (ld_label l) (ld_hasChild l) (ld_isPrefix l) x (ld_values l) (ld_prefix l) (ld_height l).

Lemma d_left_c todo : forall it pos, d_left_loop todo l it pos = d_left_loop todo l' it pos.
Proof. induction todo as [|todo IH]; intros it pos; cbn [d_left_loop]; ext. apply IH. Qed.
Local Opaque d_left_loop.
Lemma d_moveLeft_c it : d_moveLeft l it = d_moveLeft l' it.
Proof. unfold d_moveLeft. ext. apply d_left_c. Qed.
Local Opaque d_moveLeft.
Lemma d_right_c todo : forall it pos, d_right_loop todo l it pos = d_right_loop todo l' it pos.
Proof. induction todo as [|todo IH]; intros it pos; cbn [d_right_loop]; ext. apply IH. Qed.
Local Opaque d_right_loop.
Lemma d_moveRight_c it : d_moveRight l it = d_moveRight l' it.
Proof. unfold d_moveRight. ext. apply d_right_c. Qed.
Local Opaque d_moveRight.
Lemma d_next_climb_c level : forall it, d_next_climb level l it = d_next_climb level l' it.
Proof. induction level as [|level IH]; intros it; cbn [d_next_climb]; ext; auto using d_moveLeft_c. Qed.
Local Opaque d_next_climb.
Lemma d_next_c it : d_next l it = d_next l' it.
Proof. unfold d_next. ext; auto using d_moveLeft_c, d_next_climb_c. Qed.
Local Opaque d_next.
Lemma d_prev_climb_c level : forall it, d_prev_climb level l it = d_prev_climb level l' it.
Proof. induction level as [|level IH]; intros it; cbn [d_prev_climb]; ext; auto using d_moveRight_c. Qed.
Local Opaque d_prev_climb.
Lemma d_prev_c it : d_prev l it = d_prev l' it.
Proof. unfold d_prev. ext; auto using d_prev_climb_c. Qed.
Local Opaque d_prev.
Lemma d_compareSuffix_c it key pos level : d_compareSuffix l it key pos level = d_compareSuffix l' it key pos level.
Proof. unfold d_compareSuffix. ext; [apply X|apply d_next_c]. Qed.
Local Opaque d_compareSuffix.
Lemma d_seek_loop_c key todo : forall it n d, d_seek_loop todo l it key n d = d_seek_loop todo l' it key n d.
Proof. induction todo as [|todo IH]; intros it n d; cbn [d_seek_loop]; ext; auto using d_next_c, d_moveLeft_c, d_compareSuffix_c. Qed.
Local Opaque d_seek_loop.
Lemma d_compare_c it key : d_compare l it key = d_compare l' it key.
Proof. unfold d_compare. ext. apply X. Qed.
Local Opaque d_compare.
Lemma check_value_c v i k d : check_value fp (ld_suffixes l) v i k d = check_value fp x v i k d.
Proof. unfold check_value. ext. apply X. Qed.
Lemma ld_get_c key todo : forall n d, ld_get_loop fp todo l key n d = ld_get_loop fp todo l' key n d.
Proof. induction todo as [|todo IH]; intros n d; cbn [ld_get_loop]; ext; auto using check_value_c. Qed.
Local Opaque ld_get_loop.
End CongD.

Section CongS.
Context (fp : bytes -> N) (l : loudsSparse) (x : suffixVector) (X : xeq fp (ls_suffixes l) x).
Let l' := mkLS (ls_height l) (ls_startLevel l) (ls_denseNodeCount l) (ls_denseChildCount l) (ls_label l) (ls_hasChild l) (ls_louds l)
    x (ls_values l) (ls_prefix l).

Lemma p_down_c f todo : forall it pos, p_down_loop f todo l it pos = p_down_loop f todo l' it pos.
Proof. induction todo as [|todo IH]; intros it pos; cbn [p_down_loop]; ext. apply IH. Qed.
Local Opaque p_down_loop.
Lemma p_move_c f it : p_move f l it = p_move f l' it.
Proof. unfold p_move. ext. apply p_down_c. Qed.
Local Opaque p_move.
Lemma p_moveLeft_c it : p_moveLeft l it = p_moveLeft l' it.
Proof. unfold p_moveLeft. rewrite p_move_c. reflexivity. Qed.
Lemma p_moveRight_c it : p_moveRight l it = p_moveRight l' it.
Proof. unfold p_moveRight. rewrite p_move_c. reflexivity. Qed.
Local Opaque p_moveLeft p_moveRight.
Lemma p_next_climb_c level : forall it, p_next_climb level l it = p_next_climb level l' it.
Proof. induction level as [|level IH]; intros it; cbn [p_next_climb]; ext; auto using p_moveLeft_c. Qed.
Local Opaque p_next_climb.
Lemma p_next_c it : p_next l it = p_next l' it.
Proof. apply p_next_climb_c. Qed.
Local Opaque p_next.
Lemma p_prev_climb_c level : forall it, p_prev_climb level l it = p_prev_climb level l' it.
Proof. induction level as [|level IH]; intros it; cbn [p_prev_climb]; ext; auto using p_moveRight_c. Qed.
Local Opaque p_prev_climb.
Lemma p_prev_c it : p_prev l it = p_prev l' it.
Proof. unfold p_prev. ext; auto using p_prev_climb_c. Qed.
Local Opaque p_prev.
Lemma p_leftInNext_c it pos n size label : p_leftInNext l it pos n size label = p_leftInNext l' it pos n size label.
Proof. unfold p_leftInNext. ext; auto using p_moveLeft_c, p_next_c. Qed.
Local Opaque p_leftInNext.
Lemma p_compareSuffix_c it key pos level : p_compareSuffix l it key pos level = p_compareSuffix l' it key pos level.
Proof. unfold p_compareSuffix. ext; [apply X|apply p_next_c]. Qed.
Local Opaque p_compareSuffix.
Lemma p_seek_loop_c key todo : forall it n pos d, p_seek_loop todo l it key n pos d = p_seek_loop todo l' it key n pos d.
Proof. induction todo as [|todo IH]; intros it n pos d; cbn [p_seek_loop]; ext; auto using p_next_c, p_moveLeft_c, p_compareSuffix_c, p_leftInNext_c. Qed.
Local Opaque p_seek_loop.
Lemma p_seek_c it key : p_seek l it key = p_seek l' it key.
Proof. unfold p_seek. ext. apply p_seek_loop_c. Qed.
Local Opaque p_seek.
Lemma p_compare_c it key : p_compare l it key = p_compare l' it key.
Proof. unfold p_compare. ext. apply X. Qed.
Local Opaque p_compare.
Lemma check_value_s v i k d : check_value fp (ls_suffixes l) v i k d = check_value fp x v i k d.
Proof. unfold check_value. ext. apply X. Qed.
Local Opaque check_value.
Lemma ls_get_end_c key pos d : ls_get_end fp l key pos d = ls_get_end fp l' key pos d.
Proof. unfold ls_get_end. ext. apply check_value_s. Qed.
Local Opaque ls_get_end.
Lemma ls_get_c key todo : forall n pos d, ls_get_loop fp todo l key n pos d = ls_get_loop fp todo l' key n pos d.
Proof. induction todo as [|todo IH]; intros n pos d; cbn [ls_get_loop]; ext; auto using check_value_s, ls_get_end_c. Qed.
Local Opaque ls_get_loop.
End CongS.

Section CongAll.
Context (fp : bytes -> N) (s : surf) (x y : suffixVector) (X : xeq fp (ld_suffixes (s_ld s)) x) (Y : xeq fp (ls_suffixes (s_ls s)) y).
Let d := s_ld s.
Let p := s_ls s.
Let s' := mkSurf (mkLD (ld_label d) (ld_hasChild d) (ld_isPrefix d) x (ld_values d) (ld_prefix d) (ld_height d))
  (mkLS (ls_height p) (ls_startLevel p) (ls_denseNodeCount p) (ls_denseChildCount p) (ls_label p) (ls_hasChild p) (ls_louds p) y (ls_values p) (ls_prefix p)).

Lemma incrDense_c it : incrDense s it = incrDense s' it.
Proof. unfold incrDense. ext; [apply d_next_c|]. unfold it_sparse. ext. apply p_moveLeft_c. Qed.
Local Opaque incrDense.
Lemma decrDense_c it : decrDense s it = decrDense s' it.
Proof. unfold decrDense. ext; [apply d_prev_c|]. unfold it_sparse. ext. apply p_moveRight_c. Qed.
Local Opaque decrDense.
Lemma it_seek_c it key : it_seek s it key = it_seek s' it key.
Proof.
  unfold it_seek. cbv zeta. ext.
  - unfold d_seek. apply (d_seek_loop_c fp); auto.
  - apply (p_seek_c fp). auto.
  - apply incrDense_c.
  - unfold it_sparse. ext. apply p_moveLeft_c.
Qed.
Local Opaque it_seek.
Lemma it_compare_c it key : it_compare s it key = it_compare s' it key.
Proof. unfold it_compare. ext; [now apply (d_compare_c fp)|now apply (p_compare_c fp)]. Qed.
Local Opaque it_compare.

Lemma same_answers_c : same_answers fp s s'.
Proof.
  unfold same_answers. split; [|split; [|split; [|split; [|split; [|split; [|split; [|split]]]]]]].
  - intros k. unfold surf_get, ld_get, ls_get. apply bind_ext; [now apply ld_get_c|]. intros [v|n dep]; [reflexivity|].
    apply bind_ext; [reflexivity|]. intros pos. now apply ls_get_c.
  - intros a b i. unfold hasOverlap. cbn [s_ld s_ls ld_height ls_height s' d p]. destruct (_ && _); [reflexivity|].
    apply bind_ext; [apply it_seek_c|]. intros [it f]. destruct (negb (it_valid it)); [reflexivity|].
    apply bind_ext; [apply it_compare_c|]. reflexivity.
  - reflexivity.
  - intros it. unfold it_next. ext; auto using incrDense_c. apply p_next_c.
  - intros it. unfold it_prev. ext; auto using decrDense_c. apply p_prev_c.
  - apply it_seek_c.
  - intros it. unfold it_seekToFirst, it_sparse. cbv beta zeta. ext; first [apply p_moveLeft_c | apply d_moveLeft_c].
  - intros it. unfold it_seekToLast, it_sparse. cbv beta zeta. ext; first [apply p_moveRight_c | apply d_moveRight_c].
  - intros it. unfold it_value. ext.
Qed.
End CongAll.

Lemma type_none vs h r : c_type (mkcfg vs h r) = NoneSuffix <-> h + r = 0.
Proof. destruct h, r; cbn; split; intros E; try discriminate; auto; lia. Qed.
Lemma stale_id old v : xv_type v <> NoneSuffix -> stale old v = v.
Proof. unfold stale. destruct (xv_type v); cbn [suffixType_eqb]; auto. congruence. Qed.
Lemma xv_id v : mkXV (mkBV (bv_numBits (xv_bv v)) (bv_bits (xv_bv v))) (xv_type v) (xv_hashLen v) (xv_realLen v) = v.
Proof. now destruct v as [[? ?] ? ? ?]. Qed.

Section Reuse.
Context (fp : bytes -> N) (vs h r : nat) (keys vals : list bytes) (hint : Z) (s : surf) (V : valid_input vs h r keys vals)
  (B : built fp vs h r keys vals hint s) (F : fields_fit s).

Lemma built_types : xv_type (ld_suffixes (s_ld s)) = c_type (mkcfg vs h r) /\ xv_type (ls_suffixes (s_ls s)) = c_type (mkcfg vs h r).
Proof.
  destruct (built_rep _ _ _ _ _ _ _ _ V B) as (cut & (_ & _ & _ & _ & D & S) & _).
  split; [apply (ldr_suf _ _ _ _ _ D)|apply (lsr_suf _ _ _ _ _ _ _ S)].
Qed.
Lemma built_nowords : h + r = 0 -> xv_bv (ld_suffixes (s_ld s)) = mkBV 0 [] /\ xv_bv (ls_suffixes (s_ls s)) = mkBV 0 [].
Proof.
  intros N. destruct (built_wf fp vs h r keys vals hint s V B F) as [W1 W2]. destruct built_types as [T1 T2].
  apply (type_none vs) in N. rewrite N in T1, T2.
  split; [apply (lw_suf _ W1)|apply (sw_suf _ W2)]; auto.
Qed.

Theorem reuse_answers old rest : exists s', unmarshal_into old (marshal s ++ rest) = Ok s' /\ same_answers fp s s' /\
  (s' = s <-> h + r <> 0 \/ suffix_words old = []).
Proof.
  exists (stale_surf old s). rewrite unmarshal_stale, (built_roundtrip _ _ _ _ _ _ _ _ V B F rest). cbn [bind].
  destruct (built_wf fp vs h r keys vals hint s V B F) as [W1 W2]. destruct built_types as [T1 T2].
  split; [reflexivity|]. split.
  { apply same_answers_c; apply xeq_stale; intros T; [destruct (lw_suf _ W1) as (_ & _ & _ & Q) | destruct (sw_suf _ W2) as (_ & _ & _ & Q)];
      rewrite (Q T); reflexivity. }
  destruct (Nat.eq_dec (h + r) 0) as [N|N].
  - destruct (built_nowords N) as [N1 N2]. apply (type_none vs) in N as N3. rewrite N3 in T1, T2. split.
    + intros E. right. unfold suffix_words.
      pose proof (f_equal (fun s => bv_bits (xv_bv (ld_suffixes (s_ld s)))) E) as E1.
      pose proof (f_equal (fun s => bv_bits (xv_bv (ls_suffixes (s_ls s)))) E) as E2. cbn beta in E1, E2. rewrite N1 in E1. rewrite N2 in E2.
      cbn [stale_surf s_ld s_ls stale_ld stale_ls ld_suffixes ls_suffixes] in E1, E2. unfold stale in E1, E2. rewrite T1 in E1. rewrite T2 in E2.
      cbn [suffixType_eqb xv_bv bv_bits] in E1, E2. rewrite E1, E2. reflexivity.
    + intros [X|X]; [contradiction|]. apply app_eq_nil in X as [X1 X2].
      unfold stale_surf, stale_ld, stale_ls, stale. rewrite T1, T2, X1, X2. cbn [suffixType_eqb].
      destruct s as [[? ? ? [[? ?] ? ? ?] ? ? ?] [? ? ? ? ? ? ? [[? ?] ? ? ?] ? ?]]; cbn in *. now inversion N1; inversion N2; subst.
  - split; [auto|]. intros _. rewrite <- (type_none vs) in N. rewrite <- T1 in N at 1.
    assert (N' : xv_type (ls_suffixes (s_ls s)) <> NoneSuffix) by congruence.
    unfold stale_surf, stale_ld, stale_ls. rewrite !stale_id by auto. now destruct s as [[] []].
Qed.

Lemma stale_length old v : xv_type v = NoneSuffix -> xv_bv v = mkBV 0 [] ->
  length (xv_write (stale old v)) = xv_size v + 8 * length (bv_bits (xv_bv old)) /\ xv_size (stale old v) = xv_size v.
Proof.
  intros T E. unfold xv_write, xv_size, xv_rawSize, bitsSize, stale. rewrite T, E. cbn [suffixType_eqb xv_bv bv_numBits bv_bits]. split; [|reflexivity].
  len. cbn. lia.
Qed.

(** Without suffixes the stale words are written out again, in addition to what the size accounts for. *)
Theorem reuse_size old rest s' : h + r = 0 -> unmarshal_into old (marshal s ++ rest) = Ok s' ->
  marshalSize s' = marshalSize s /\ length (marshal s') = marshalSize s + 8 * length (suffix_words old).
Proof.
  intros N. rewrite unmarshal_stale, (built_roundtrip _ _ _ _ _ _ _ _ V B F rest). cbn [bind]. intros E. apply Ok_eq in E. subst s'.
  destruct (built_wf fp vs h r keys vals hint s V B F) as [W1 W2]. destruct built_types as [T1 T2]. destruct (built_nowords N) as [N1 N2].
  apply (type_none vs) in N as N3. rewrite N3 in T1, T2.
  destruct (stale_length (ld_suffixes (s_ld old)) _ T1 N1) as [L1 Z1]. destruct (stale_length (ls_suffixes (s_ls old)) _ T2 N2) as [L2 Z2].
  assert (R1 : ld_rawSize (stale_ld (s_ld old) (s_ld s)) = ld_rawSize (s_ld s)).
  { unfold ld_rawSize, stale_ld. cbn [ld_label ld_hasChild ld_isPrefix ld_suffixes ld_prefix]. now rewrite Z1. }
  assert (R2 : ls_rawSize (stale_ls (s_ls old) (s_ls s)) = ls_rawSize (s_ls s)).
  { unfold ls_rawSize, stale_ls. cbn [ls_label ls_hasChild ls_louds ls_suffixes ls_prefix]. now rewrite Z2. }
  split.
  - unfold marshalSize, stale_surf, ld_size, ls_size. cbn [s_ld s_ls]. now rewrite R1, R2.
  - rewrite <- (marshal_length s W1 W2). unfold marshal, stale_surf. cbn [s_ld s_ls]. unfold ld_write, ls_write. rewrite R1, R2.
    unfold stale_ld, stale_ls. cbn [ld_label ld_hasChild ld_isPrefix ld_suffixes ld_prefix ld_values ld_height ls_label ls_hasChild ls_louds ls_suffixes ls_prefix ls_values ls_height ls_startLevel ls_denseNodeCount ls_denseChildCount].
    rewrite !app_length, L1, L2, !xv_write_length by (apply W1 || apply W2). unfold suffix_words. rewrite app_length. lia.
Qed.
Theorem reuse_marshal old rest s' : unmarshal_into old (marshal s ++ rest) = Ok s' ->
  (marshal s' = marshal s <-> h + r <> 0 \/ suffix_words old = []).
Proof.
  intros E. destruct (reuse_answers old rest) as (s1 & E1 & _ & X). rewrite E in E1. apply Ok_eq in E1. subst s1.
  split; [|intros H; apply X in H; now subst].
  intros M. destruct (Nat.eq_dec (h + r) 0) as [N|N]; [|auto]. right.
  destruct (reuse_size old rest s' N E) as [_ L]. destruct (built_wf fp vs h r keys vals hint s V B F) as [W1 W2].
  rewrite M, (marshal_length s W1 W2) in L. apply length_zero_iff_nil. lia.
Qed.
End Reuse.
