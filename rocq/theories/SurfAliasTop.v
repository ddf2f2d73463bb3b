(** * SurfAliasTop: what a caller's writes into a returned value do to the filter. *)
From Verif Require Import Base BitsModel VecModel SurfModel SurfIter SurfTrie SurfBuild SurfEnc SurfBuildTop SurfGet SurfSpec SurfTop SurfSize SurfGetSpec SurfExact SurfAll SurfAlias SurfAliasProofs VecProofs.

Definition arr (s : surf) (p : part) : bytes := vv_bytes (part_values s p).

(* ------------------------------------------------------------------ *)
(** ** Lists cut into pieces of equal length *)

Section Chunks.
Variable vs : nat.
Definition chunk (X : bytes) (pos : nat) : bytes := firstn vs (skipn (pos * vs) X).

Lemma skipn_add {A} (l : list A) : forall a b, skipn a (skipn b l) = skipn (a + b) l.
Proof.
  induction l as [|x l IH]; intros a b.
  - now rewrite !skipn_nil.
  - destruct b as [|b]; [rewrite Nat.add_0_r; reflexivity|]. rewrite Nat.add_succ_r. cbn [skipn]. apply IH.
Qed.

Lemma chunks (g : nat -> bytes) l : forall X, length X = vs * length l ->
  (forall pos i, nth_error l pos = Some i -> g i = chunk X pos) -> flat_map g l = X.
Proof.
  induction l as [|i l IH]; intros X LX H; cbn [flat_map length] in *.
  - destruct X; [reflexivity|cbn in LX; lia].
  - rewrite (H 0 i eq_refl). unfold chunk. cbn [Nat.mul skipn]. rewrite (IH (skipn vs X)); [apply firstn_skipn|rewrite skipn_length; lia|].
    intros pos j E. rewrite (H (S pos) j E). unfold chunk. rewrite skipn_add. do 2 f_equal. lia.
Qed.

Lemma chunk_flat (f : nat -> bytes) l : (forall i, In i l -> length (f i) = vs) -> forall pos i, nth_error l pos = Some i -> chunk (flat_map f l) pos = f i.
Proof.
  unfold chunk. induction l as [|x l IH]; intros H pos i E; [now destruct pos|].
  assert (Hx : length (f x) = vs) by (apply H; now left). cbn [flat_map]. destruct pos as [|pos]; cbn in E.
  - assert (x = i) as -> by congruence. cbn [Nat.mul skipn]. rewrite <- Hx at 1. rewrite firstn_app, Nat.sub_diag, firstn_all, firstn_O, app_nil_r. reflexivity.
  - replace (S pos * vs) with (pos * vs + length (f x)) by lia. rewrite <- skipn_add, skipn_app, skipn_all, Nat.sub_diag. cbn [skipn app].
    apply IH; auto. intros j Hj. apply H. now right.
Qed.

Lemma flat_length (f : nat -> bytes) l : (forall i, In i l -> length (f i) = vs) -> length (flat_map f l) = vs * length l.
Proof.
  induction l as [|x l IH]; intros H; cbn [flat_map length]; [lia|]. rewrite app_length, (H x (or_introl eq_refl)), IH; [lia|].
  intros j Hj. apply H. now right.
Qed.
End Chunks.

Lemma nodup_l {A} (l l' : list A) : NoDup (l ++ l') -> NoDup l.
Proof. induction l as [|x l IH]; intros H; [constructor|]. inversion H; subst. constructor; auto. intros X. apply H2. apply in_or_app. now left. Qed.
Lemma nodup_r {A} (l l' : list A) : NoDup (l ++ l') -> NoDup l'.
Proof. induction l as [|x l IH]; intros H; auto. inversion H; auto. Qed.

Lemma overwrite_length {A} (l : list A) off xs : off + length xs <= length l -> length (overwrite l off xs) = length l.
Proof. intros H. unfold overwrite. rewrite !app_length, firstn_length, skipn_length. lia. Qed.
Lemma nth_error_skipn' {A} (l : list A) : forall a i, nth_error (skipn a l) i = nth_error l (a + i).
Proof. induction l as [|x l IH]; intros [|a] i; cbn [skipn nth_error Nat.add]; auto. now destruct i. Qed.
Lemma nth_error_firstn' {A} (l : list A) : forall a i, i < a -> nth_error (firstn a l) i = nth_error l i.
Proof. induction l as [|x l IH]; intros [|a] [|i] H; cbn; auto; try lia. apply IH. lia. Qed.
Lemma nth_error_overwrite {A} (l : list A) off xs i : off + length xs <= length l ->
  nth_error (overwrite l off xs) i = if Nat.leb off i && Nat.ltb i (off + length xs) then nth_error xs (i - off) else nth_error l i.
Proof.
  intros H. unfold overwrite. assert (LF : length (firstn off l) = off) by (rewrite firstn_length; lia).
  destruct (Nat.leb_spec off i); cbn [andb].
  - rewrite nth_error_app2 by lia. rewrite LF. destruct (Nat.ltb_spec i (off + length xs)).
    + now rewrite nth_error_app1 by lia.
    + rewrite nth_error_app2 by lia. rewrite nth_error_skipn'. f_equal. lia.
  - rewrite nth_error_app1 by lia. now apply nth_error_firstn'.
Qed.
Lemma nth_error_chunk vs X pos t : t < vs -> nth_error (chunk vs X pos) t = nth_error X (pos * vs + t).
Proof. intros H. unfold chunk. rewrite nth_error_firstn' by auto. apply nth_error_skipn'. Qed.
Lemma overwrite_one {A} (l : list A) : forall j x, j < length l -> overwrite l j [x] = set_nth l j x.
Proof.
  unfold overwrite. induction l as [|y l IH]; intros [|j] x H; cbn [length] in *; [lia|lia| |].
  - reflexivity.
  - cbn [firstn app Nat.add skipn set_nth]. rewrite <- (IH j x) by lia. cbn [app]. reflexivity.
Qed.

(** The position of a number in a list. *)
Fixpoint pos_of (l : list nat) (i : nat) : option nat :=
  match l with [] => None | x :: r => if Nat.eqb x i then Some 0 else option_map S (pos_of r i) end.
Lemma pos_of_some l : forall i p, pos_of l i = Some p -> nth_error l p = Some i.
Proof.
  induction l as [|x l IH]; intros i p H; cbn in H; [discriminate|]. destruct (Nat.eqb_spec x i) as [->|N].
  - assert (p = 0) as -> by congruence. reflexivity.
  - destruct (pos_of l i) as [p'|] eqn:E; cbn in H; [|discriminate]. assert (p = S p') as -> by congruence. cbn. auto.
Qed.
Lemma pos_of_none l : forall i, pos_of l i = None -> ~ In i l.
Proof.
  induction l as [|x l IH]; intros i H []; cbn in H.
  - subst. rewrite Nat.eqb_refl in H. discriminate.
  - destruct (Nat.eqb x i); [discriminate|]. destruct (pos_of l i) eqn:E; [discriminate|]. eapply IH; eauto.
Qed.
Lemma pos_of_nth l : NoDup l -> forall i p, nth_error l p = Some i -> pos_of l i = Some p.
Proof.
  intros ND i p E. destruct (pos_of l i) as [p'|] eqn:E'.
  - apply pos_of_some in E'. f_equal. rewrite NoDup_nth_error in ND. apply ND; [|congruence]. apply nth_error_Some. congruence.
  - exfalso. apply (pos_of_none _ _ E'). eapply nth_error_In; eauto.
Qed.

Lemma vals_ext (a b : list bytes) : length a = length b -> (forall i, i < length a -> nval a i = nval b i) -> a = b.
Proof.
  intros L H. apply list_eq_nth_error. intros i. destruct (Nat.lt_ge_cases i (length a)) as [X|X].
  - rewrite !(nth_error_nth' _ []) by lia. f_equal. now apply H.
  - rewrite !(proj2 (nth_error_None _ _)); auto; lia.
Qed.

(* ------------------------------------------------------------------ *)
(** ** The slots of a filter *)

Section Slots.
Variable fp : bytes -> N.
Variables vs h r : nat.
Variables keys vals : list bytes.
Variable hint : Z.
Hypothesis V : valid_input vs h r keys vals.
Variable s1 : surf.
Hypothesis B1 : built fp 1 h r keys (ivals (length keys)) hint s1.
Let n := length keys.
Let s := ups (nval vals) vs s1.

Lemma one_sizes : vv_valueSize (part_values s1 DensePart) = 1 /\ vv_valueSize (part_values s1 SparsePart) = 1 /\
  length (arr s1 DensePart) + length (arr s1 SparsePart) = n.
Proof.
  pose proof (ivals_valid _ _ _ _ _ V) as V1. destruct (built_rep _ _ _ _ _ _ _ _ V1 B1) as (cut & (HL & _ & _ & _ & LD & LS) & W & CO & LO & MF & _).
  destruct (ldr_val _ _ _ _ _ LD) as [D1 D2]. destruct (lsr_val _ _ _ _ _ _ _ LS) as [S1 S2]. split; [exact D1|]. split; [exact S1|].
  unfold arr. cbn [part_values]. rewrite D2, S2, <- app_length, <- flat_map_app, <- leaves_app, <- concat_app, firstn_skipn.
  pose proof (leaves_total _ W) as LT.
  assert (X : forall l, Forall (leaf_ok (mkcfg 1 h r)) l -> length (flat_map (ivalue (mkcfg 1 h r)) l) = length l).
  { induction 1 as [|x l [_ Hx] _ IH]; [reflexivity|]. cbn [flat_map length]. rewrite app_length, Hx, IH. reflexivity. }
  rewrite X by exact LO. etransitivity; [exact LT|]. rewrite combine_length. unfold ivals. rewrite map_length, seq_length. unfold n. lia.
Qed.

Lemma find_stored i k : nth_error keys i = Some k -> exists p pos, surf_find fp s1 k = Ok (Some (p, pos)) /\ nth_error (arr s1 p) pos = Some i.
Proof.
  intros E. pose proof (ivals_valid _ _ _ _ _ V) as V1.
  assert (Ei : nth_error (ivals (length keys)) i = Some [i]).
  { unfold ivals. rewrite nth_error_map_up. assert (i < length keys) by (apply nth_error_Some; congruence).
    rewrite (nth_error_nth' _ 0) by (rewrite seq_length; auto). rewrite seq_nth by auto. reflexivity. }
  pose proof (get_stored _ _ _ _ _ _ _ _ _ _ _ V1 B1 E Ei) as G. rewrite get_find in G.
  destruct (surf_find fp s1 k) as [[[p pos]|]| |]; cbn [bind] in G; try discriminate.
  exists p, pos. split; [reflexivity|]. destruct (valueVector_get _ _) as [v| |] eqn:EV; cbn [bind] in G; try discriminate.
  apply OkI in G. assert (v = [i]) as -> by (cbn in G; congruence). clear G. unfold valueVector_get in EV.
  assert (SZ : vv_valueSize (part_values s1 p) = 1) by (destruct p; apply one_sizes). rewrite SZ, Nat.mul_1_r in EV.
  unfold slice in EV. destruct (_ && _) eqn:EB; [|discriminate]. apply OkI in EV. replace (pos + 1 - pos) with 1 in EV by lia.
  unfold arr. destruct (skipn pos (vv_bytes (part_values s1 p))) as [|x w] eqn:ES; [discriminate|]. cbn in EV. assert (x = i) as -> by congruence.
  rewrite <- (firstn_skipn pos (vv_bytes (part_values s1 p))), ES. apply andb_true_iff in EB as [_ EB]. apply Nat.leb_le in EB.
  rewrite nth_error_app2; rewrite firstn_length; [|lia]. replace (pos - _) with 0 by lia. reflexivity.
Qed.

Lemma slots_nodup : NoDup (arr s1 DensePart ++ arr s1 SparsePart) /\ forall i, In i (arr s1 DensePart ++ arr s1 SparsePart) -> i < n.
Proof.
  assert (I : incl (seq 0 n) (arr s1 DensePart ++ arr s1 SparsePart)).
  { intros i Hi. apply in_seq in Hi. destruct (nth_error keys i) as [k|] eqn:E; [|apply nth_error_None in E; unfold n in Hi; lia].
    destruct (find_stored i k E) as (p & pos & _ & X). apply nth_error_In in X. apply in_or_app. destruct p; auto. }
  assert (LL : length (arr s1 DensePart ++ arr s1 SparsePart) = n) by (rewrite app_length; apply one_sizes).
  split.
  - apply (@NoDup_incl_NoDup nat (seq 0 n)); auto; [apply seq_NoDup|rewrite seq_length; lia].
  - intros i Hi. assert (X : incl (arr s1 DensePart ++ arr s1 SparsePart) (seq 0 n)) by (apply NoDup_length_incl; auto; [apply seq_NoDup|rewrite seq_length; lia]).
    apply X, in_seq in Hi. lia.
Qed.

Lemma slot_lt p pos i : nth_error (arr s1 p) pos = Some i -> i < n.
Proof. intros E. apply slots_nodup. apply nth_error_In in E. apply in_or_app. destruct p; auto. Qed.

Lemma slot_inj p pos p' pos' i : nth_error (arr s1 p) pos = Some i -> nth_error (arr s1 p') pos' = Some i -> p = p' /\ pos = pos'.
Proof.
  intros E E'. destruct slots_nodup as [ND _]. rewrite NoDup_nth_error in ND.
  set (D := arr s1 DensePart) in *. set (S := arr s1 SparsePart) in *.
  assert (X : forall p pos, nth_error (arr s1 p) pos = Some i -> nth_error (D ++ S) (match p with DensePart => pos | SparsePart => length D + pos end) = Some i /\
     (match p with DensePart => pos | SparsePart => length D + pos end) < length (D ++ S) /\ match p with DensePart => pos < length D | SparsePart => True end).
  { clear - D S. intros p pos E. rewrite app_length. assert (LT : pos < length (arr s1 p)) by (apply nth_error_Some; congruence). destruct p; fold D in E, LT; fold S in E, LT.
    - rewrite nth_error_app1 by auto. split; [auto|split; lia].
    - rewrite nth_error_app2 by lia. replace (length D + pos - length D) with pos by lia. split; [auto|split; [lia|exact Logic.I]]. }
  destruct (X _ _ E) as (X1 & X2 & X3). destruct (X _ _ E') as (Y1 & Y2 & Y3).
  assert (EQ := ND _ _ X2 (eq_trans X1 (eq_sym Y1))). destruct p, p'; try (split; [reflexivity|lia]); lia.
Qed.

Lemma fv_length i : i < n -> length (fv (nval vals) vs i) = vs.
Proof.
  intros Hi. unfold fv, nval. rewrite firstn_length. pose proof (v_size _ _ _ _ _ V) as F. pose proof (v_vals _ _ _ _ _ V) as LV. rewrite Forall_forall in F.
  assert (X : vs <= length (nth i vals [])); [|lia]. apply F. rewrite <- (firstn_skipn (length keys) vals) at 1. rewrite app_nth1; [apply nth_In|]; rewrite firstn_length; unfold n in Hi; lia.
Qed.

Lemma arr_up p : arr s p = flat_map (fv (nval vals) vs) (arr s1 p).
Proof. destruct p; reflexivity. Qed.
Lemma arr_length p : length (arr s p) = vs * length (arr s1 p).
Proof. rewrite arr_up. apply flat_length. intros i Hi. apply fv_length. apply In_nth_error in Hi as (pos & E). eapply slot_lt; eauto. Qed.
Lemma arr_chunk p pos i : nth_error (arr s1 p) pos = Some i -> chunk vs (arr s p) pos = fv (nval vals) vs i.
Proof.
  intros E. rewrite arr_up. apply (chunk_flat vs (fv (nval vals) vs)); auto. intros j Hj. apply fv_length. apply In_nth_error in Hj as (q & X). eapply slot_lt; eauto.
Qed.

(** Any other contents of the two arrays are those of a filter with other values. *)
Definition new_val (D S : bytes) (i : nat) : bytes :=
  match pos_of (arr s1 DensePart) i with
  | Some pos => chunk vs D pos ++ skipn vs (nval vals i)
  | None => match pos_of (arr s1 SparsePart) i with
            | Some pos => chunk vs S pos ++ skipn vs (nval vals i)
            | None => nval vals i
            end
  end.
Definition new_vals (D S : bytes) : list bytes := map (new_val D S) (seq 0 (length vals)).

Lemma new_nval D S i : i < length vals -> nval (new_vals D S) i = new_val D S i.
Proof.
  intros H. unfold nval, new_vals. rewrite (nth_indep _ [] (new_val D S 0)) by (now rewrite map_length, seq_length). rewrite map_nth, seq_nth by auto. reflexivity.
Qed.

Definition other (p : part) : part := match p with DensePart => SparsePart | SparsePart => DensePart end.

Lemma new_slot D S p pos i : nth_error (arr s1 p) pos = Some i ->
  new_val D S i = chunk vs (match p with DensePart => D | SparsePart => S end) pos ++ skipn vs (nval vals i).
Proof.
  intros E. unfold new_val. destruct slots_nodup as [ND _].
  destruct p.
  - rewrite (pos_of_nth _ (nodup_l _ _ ND) _ _ E). reflexivity.
  - destruct (pos_of (arr s1 DensePart) i) as [q|] eqn:EQ.
    + apply pos_of_some in EQ. destruct (slot_inj _ _ _ _ _ E EQ). discriminate.
    + rewrite (pos_of_nth _ (nodup_r _ _ ND) _ _ E). reflexivity.
Qed.

Lemma chunk_length X p pos i : nth_error (arr s1 p) pos = Some i -> length X = length (arr s p) -> length (chunk vs X pos) = vs.
Proof.
  intros E L. unfold chunk. rewrite firstn_length, skipn_length, L, arr_length. assert (pos < length (arr s1 p)) by (apply nth_error_Some; congruence). nia.
Qed.

Lemma fv_new D S p pos i : length D = length (arr s DensePart) -> length S = length (arr s SparsePart) -> nth_error (arr s1 p) pos = Some i ->
  fv (nval (new_vals D S)) vs i = chunk vs (match p with DensePart => D | SparsePart => S end) pos.
Proof.
  intros LD LS E. pose proof (slot_lt _ _ _ E) as Hi. pose proof (v_vals _ _ _ _ _ V) as LV. unfold fv. rewrite new_nval by (unfold n in Hi; lia). rewrite (new_slot _ _ _ _ _ E).
  assert (CL : length (chunk vs (match p with DensePart => D | SparsePart => S end) pos) = vs) by (apply (chunk_length _ p pos i); auto; destruct p; auto).
  rewrite <- CL at 1. rewrite firstn_app, Nat.sub_diag, firstn_all, firstn_O, app_nil_r. reflexivity.
Qed.

Lemma new_valid D S : length D = length (arr s DensePart) -> length S = length (arr s SparsePart) -> valid_input vs h r keys (new_vals D S).
Proof.
  intros LD LS. pose proof (v_vals _ _ _ _ _ V) as LV. destruct V as [v1 v2 v3 v4 v5 v6 v7 v8]. constructor; auto.
  - unfold new_vals. now rewrite map_length, seq_length.
  - apply Forall_forall. intros v Hv. apply In_nth_error in Hv as (i & E). assert (Hi : i < length keys).
    { assert (i < length (firstn (length keys) (new_vals D S))) by (apply nth_error_Some; congruence). rewrite firstn_length in H. lia. }
    assert (EV : v = nval (new_vals D S) i).
    { unfold nval. rewrite <- (firstn_skipn (length keys) (new_vals D S)), app_nth1; [symmetry; now apply nth_error_nth|apply nth_error_Some; congruence]. }
    destruct (nth_error keys i) as [k|] eqn:EK; [|apply nth_error_None in EK; lia]. destruct (find_stored i k EK) as (p & pos & _ & X).
    pose proof (fv_new D S p pos i LD LS X) as FN. assert (CL : length (chunk vs (match p with DensePart => D | SparsePart => S end) pos) = vs) by (apply (chunk_length _ p pos i); auto; destruct p; auto).
    rewrite <- FN in CL. unfold fv in CL. rewrite <- EV, firstn_length in CL. lia.
Qed.

Definition with_arrays (D S : bytes) : surf :=
  mkSurf (ld_setValues (s_ld s) (mkVV D vs)) (ls_setValues (s_ls s) (mkVV S vs)).

Theorem arrays_built D S : length D = length (arr s DensePart) -> length S = length (arr s SparsePart) ->
  built fp vs h r keys (new_vals D S) hint (with_arrays D S).
Proof.
  intros LD LS. replace (with_arrays D S) with (ups (nval (new_vals D S)) vs s1); [apply up_built; auto; now apply new_valid|].
  unfold ups, with_arrays, s. cbn [ups s_ld s_ls]. unfold upld, upls, upvv. f_equal.
  - change (ld_setValues (ld_setValues (s_ld s1) (mkVV (flat_map (fv (nval vals) vs) (vv_bytes (ld_values (s_ld s1)))) vs)) (mkVV D vs)) with (ld_setValues (s_ld s1) (mkVV D vs)). do 2 f_equal.
    apply (chunks vs); [rewrite LD, arr_length; reflexivity|]. intros pos i E. apply (fv_new D S DensePart pos i LD LS E).
  - change (ls_setValues (ls_setValues (s_ls s1) (mkVV (flat_map (fv (nval vals) vs) (vv_bytes (ls_values (s_ls s1)))) vs)) (mkVV S vs)) with (ls_setValues (s_ls s1) (mkVV S vs)). do 2 f_equal.
    apply (chunks vs); [rewrite LS, arr_length; reflexivity|]. intros pos i E. apply (fv_new D S SparsePart pos i LD LS E).
Qed.

Lemma set_bytes_arrays p X : set_bytes s p X = with_arrays (match p with DensePart => X | SparsePart => arr s DensePart end) (match p with DensePart => arr s SparsePart | SparsePart => X end).
Proof. destruct p; reflexivity. Qed.

(** The bytes from [j] on of the value in one slot are replaced. *)
Lemma overwrite_slot p pos i j xs : nth_error (arr s1 p) pos = Some i -> j + length xs <= vs ->
  built fp vs h r keys (set_nth vals i (overwrite (nval vals i) j xs)) hint (set_bytes s p (overwrite (arr s p) (pos * vs + j) xs)).
Proof.
  intros E LX. rewrite set_bytes_arrays. pose proof (slot_lt _ _ _ E) as Hi. pose proof (v_vals _ _ _ _ _ V) as LV.
  assert (LP : pos < length (arr s1 p)) by (apply nth_error_Some; congruence).
  assert (LA : pos * vs + j + length xs <= length (arr s p)) by (rewrite arr_length; nia).
  set (X := overwrite (arr s p) (pos * vs + j) xs).
  assert (LO : length X = length (arr s p)) by (unfold X; now apply overwrite_length).
  set (D := match p with DensePart => X | SparsePart => arr s DensePart end). set (S := match p with DensePart => arr s SparsePart | SparsePart => X end).
  assert (LD : length D = length (arr s DensePart)) by (unfold D; destruct p; auto).
  assert (LS : length S = length (arr s SparsePart)) by (unfold S; destruct p; auto).
  replace (set_nth vals i (overwrite (nval vals i) j xs)) with (new_vals D S); [now apply arrays_built|].
  apply vals_ext; [unfold new_vals; now rewrite map_length, seq_length, set_nth_length|].
  intros k Hk. assert (Hk' : k < length vals) by (unfold new_vals in Hk; now rewrite map_length, seq_length in Hk). clear Hk. rewrite new_nval by auto.
  assert (CASE : (exists q qos, nth_error (arr s1 q) qos = Some k) \/ (pos_of (arr s1 DensePart) k = None /\ pos_of (arr s1 SparsePart) k = None)).
  { destruct (pos_of (arr s1 DensePart) k) eqn:E1; [left; exists DensePart, n0; now apply pos_of_some|].
    destruct (pos_of (arr s1 SparsePart) k) eqn:E2; [left; exists SparsePart, n0; now apply pos_of_some|]. now right. }
  unfold nval at 1. rewrite nth_set_nth. destruct CASE as [(q & qos & EK)|[N1 N2]].
  - rewrite (new_slot D S q qos k EK). pose proof (slot_lt _ _ _ EK) as Hkn.
    assert (LVK : vs <= length (nval vals k)) by (pose proof (fv_length k Hkn) as Y; unfold fv in Y; rewrite firstn_length in Y; lia).
    destruct (Nat.eq_dec k i) as [->|NE].
    + destruct (slot_inj _ _ _ _ _ EK E) as [-> ->]. rewrite Nat.eqb_refl, (proj2 (Nat.ltb_lt _ _)) by lia. cbn [andb].
      replace (match p with DensePart => D | SparsePart => S end) with X by (destruct p; reflexivity).
      apply list_eq_nth_error. intros t.
      assert (CL : length (chunk vs X pos) = vs) by (apply (chunk_length X p pos i); auto).
      rewrite nth_error_overwrite by lia. destruct (Nat.lt_ge_cases t vs) as [T|T].
      * rewrite nth_error_app1 by lia. rewrite nth_error_chunk by auto. unfold X. rewrite nth_error_overwrite by lia.
        pose proof (arr_chunk p pos i E) as AC.
        assert (AT : nth_error (arr s p) (pos * vs + t) = nth_error (nval vals i) t).
        { rewrite <- (nth_error_chunk vs) by auto. rewrite AC. unfold fv. now rewrite nth_error_firstn'. }
        rewrite AT. destruct (Nat.leb_spec j t), (Nat.leb_spec (pos * vs + j) (pos * vs + t)); try lia; cbn [andb]; auto.
        replace (pos * vs + t - (pos * vs + j)) with (t - j) by lia.
        destruct (Nat.ltb_spec (pos * vs + t) (pos * vs + j + length xs)), (Nat.ltb_spec t (j + length xs)); try lia; auto.
      * rewrite nth_error_app2 by lia. rewrite CL, nth_error_skipn'. replace (vs + (t - vs)) with t by lia.
        destruct (Nat.ltb_spec t (j + length xs)); [lia|]. now rewrite andb_false_r.
    + assert (X0 : (match q with DensePart => D | SparsePart => S end) = arr s q \/ (q = p /\ (match q with DensePart => D | SparsePart => S end) = X)) by (destruct p, q; cbn; auto).
      assert (CK : chunk vs (match q with DensePart => D | SparsePart => S end) qos = fv (nval vals) vs k).
      { rewrite <- (arr_chunk q qos k EK). destruct X0 as [->|[-> ->]]; auto.
        assert (NP : qos <> pos) by congruence. apply list_eq_nth_error. intros t. destruct (Nat.lt_ge_cases t vs) as [T|T].
        - rewrite !nth_error_chunk by auto. unfold X. rewrite nth_error_overwrite by lia.
          assert (LQ : qos < length (arr s1 p)) by (apply nth_error_Some; congruence).
          destruct (Nat.leb_spec (pos * vs + j) (qos * vs + t)), (Nat.ltb_spec (qos * vs + t) (pos * vs + j + length xs)); cbn [andb]; auto. exfalso. nia.
        - rewrite !(proj2 (nth_error_None _ _)); auto; unfold chunk; rewrite firstn_length; lia. }
      rewrite CK. unfold fv. rewrite firstn_skipn. destruct (Nat.eqb_spec i k); [congruence|]. rewrite ?andb_false_r. reflexivity.
  - unfold new_val. rewrite N1, N2. destruct (Nat.eqb_spec i k) as [<-|NE]; [|rewrite ?andb_false_r; reflexivity].
    exfalso. destruct p; [apply (pos_of_none _ _ N1)|apply (pos_of_none _ _ N2)]; eapply nth_error_In; eauto.
Qed.
End Slots.

(* ------------------------------------------------------------------ *)
(** ** Writes through the slices that Get and Value return *)

Lemma slot_of_slice fp vs h r keys vals hint s1 p pos sl : valid_input vs h r keys vals -> built fp 1 h r keys (ivals (length keys)) hint s1 ->
  value_slice (ups (nval vals) vs s1) p pos = Ok sl -> sl = mkVS p (pos * vs) vs /\ (0 < vs -> exists i, nth_error (arr s1 p) pos = Some i).
Proof.
  intros V B1 E. unfold value_slice in E.
  assert (SZ : vv_valueSize (part_values (ups (nval vals) vs s1) p) = vs) by (destruct p; reflexivity). rewrite SZ in E.
  fold (arr (ups (nval vals) vs s1) p) in E. destruct (Nat.leb_spec (pos * vs + vs) (length (arr (ups (nval vals) vs s1) p))) as [L|L]; [|discriminate].
  split; [apply OkI in E; congruence|]. intros P. rewrite (arr_length fp vs h r keys vals hint V s1 B1) in L.
  destruct (nth_error (arr s1 p) pos) as [i|] eqn:X; [eauto|]. apply nth_error_None in X. exfalso. nia.
Qed.

Lemma nval_some vals i : i < length vals -> nth_error vals i = Some (nval vals i).
Proof. intros H. unfold nval. now apply nth_error_nth'. Qed.

(** Every slice: it shows the value of one key, and an assignment changes that value. *)
Theorem slice_write fp vs h r keys vals hint s p pos sl j b : valid_input vs h r keys vals -> built fp vs h r keys vals hint s ->
  value_slice s p pos = Ok sl -> j < sl_len sl ->
  exists i v s', i < length keys /\ nth_error vals i = Some v /\ sl_read s sl = firstn vs v /\
    sl_write s sl j b = Ok s' /\ built fp vs h r keys (set_nth vals i (set_nth v j b)) hint s'.
Proof.
  intros V B E Hj. destruct (built_up _ _ _ _ _ _ _ _ V B) as (s1 & B1 & ->). destruct (slot_of_slice _ _ _ _ _ _ _ _ _ _ _ V B1 E) as (-> & SL).
  cbn [sl_len] in Hj. destruct (SL ltac:(lia)) as (i & Ei). pose proof (slot_lt fp vs h r keys vals hint V s1 B1 p pos i Ei) as Hi.
  pose proof (v_vals _ _ _ _ _ V) as LV. pose proof (fv_length vs h r keys vals V i Hi) as FL. unfold fv in FL. rewrite firstn_length in FL.
  exists i, (nval vals i). eexists. split; auto. split; [apply nval_some; lia|]. split.
  { unfold sl_read. cbn [sl_len sl_off sl_part]. apply (arr_chunk fp vs h r keys vals hint V s1 B1 p pos i Ei). }
  split. { unfold sl_write. cbn [sl_len sl_off sl_part]. rewrite (proj2 (Nat.ltb_lt _ _) Hj). reflexivity. }
  rewrite <- (overwrite_one (nval vals i)) by lia. apply (overwrite_slot fp vs h r keys vals hint V s1 B1 p pos i j [b]); auto. cbn. lia.
Qed.

Lemma slice_find fp vs h r keys vals hint s q sl : valid_input vs h r keys vals -> built fp vs h r keys vals hint s -> wf_bytes q = true ->
  surf_slice fp s q = Ok (Some sl) -> exists p pos, value_slice s p pos = Ok sl /\ surf_find fp s q = Ok (Some (p, pos)).
Proof.
  intros V B W E. unfold surf_slice in E. destruct (surf_find fp s q) as [[[p pos]|]| |]; cbn [bind] in E; try discriminate.
  destruct (value_slice s p pos) as [x| |] eqn:EV; cbn [bind] in E; try discriminate. exists p, pos. split; auto. rewrite EV. apply OkI in E. congruence.
Qed.

Lemma find_hit fp vs h r keys vals hint s1 q p pos i : valid_input vs h r keys vals -> built fp 1 h r keys (ivals (length keys)) hint s1 -> wf_bytes q = true ->
  surf_find fp s1 q = Ok (Some (p, pos)) -> nth_error (arr s1 p) pos = Some i ->
  exists k, nth_error keys i = Some k /\ hit_by fp h r (ld_height (s_ld s1)) keys k q.
Proof.
  intros V B1 W E Ei. pose proof (ivals_valid _ _ _ _ _ V) as V1.
  assert (G : surf_get fp s1 q = Ok (Some [i])).
  { rewrite get_find, E. cbn [bind]. unfold valueVector_get. assert (SZ : vv_valueSize (part_values s1 p) = 1) by (destruct p; apply (one_sizes fp vs h r keys vals hint V s1 B1)).
    rewrite SZ, Nat.mul_1_r. unfold slice. assert (LP : pos < length (arr s1 p)) by (apply nth_error_Some; congruence). unfold arr in *.
    rewrite (proj2 (Nat.leb_le pos (pos + 1))), (proj2 (Nat.leb_le (pos + 1) _)) by lia. cbn [andb bind]. replace (pos + 1 - pos) with 1 by lia.
    destruct (skipn pos (vv_bytes (part_values s1 p))) as [|x w] eqn:ES.
    - pose proof (skipn_length pos (vv_bytes (part_values s1 p))) as L. rewrite ES in L. cbn in L. lia.
    - assert (nth_error (x :: w) 0 = Some i) by (rewrite <- ES, nth_error_skipn', Nat.add_0_r; exact Ei). cbn in H. cbn. congruence. }
  apply (get_all fp 1 h r keys (ivals (length keys)) hint s1 q V1 B1 W) in G as (i' & k & w & Ek & Ew & Ev & H).
  assert (i' = i) as ->; [|eauto]. unfold ivals in Ew. rewrite nth_error_map_up in Ew. assert (i' < length keys) by (apply nth_error_Some; congruence).
  rewrite (nth_error_nth' _ 0) in Ew by (rewrite seq_length; auto). rewrite seq_nth in Ew by auto. cbn in Ew. assert (w = [i']) by congruence. subst w. cbn in Ev. congruence.
Qed.

(** An assignment to a byte of what Get returned. *)
Theorem get_write fp vs h r keys vals hint s q sl j b : valid_input vs h r keys vals -> built fp vs h r keys vals hint s -> wf_bytes q = true ->
  surf_slice fp s q = Ok (Some sl) -> j < vs ->
  exists i k v s', nth_error keys i = Some k /\ nth_error vals i = Some v /\ hit_by fp h r (ld_height (s_ld s)) keys k q /\ sl_read s sl = firstn vs v /\
    sl_write s sl j b = Ok s' /\ built fp vs h r keys (set_nth vals i (set_nth v j b)) hint s'.
Proof.
  intros V B W E Hj. destruct (slice_find _ _ _ _ _ _ _ _ _ _ V B W E) as (p & pos & E1 & E2).
  destruct (built_up _ _ _ _ _ _ _ _ V B) as (s1 & B1 & ->). destruct (slot_of_slice _ _ _ _ _ _ _ _ _ _ _ V B1 E1) as (-> & SL).
  destruct (SL ltac:(lia)) as (i & Ei). rewrite find_up in E2. destruct (find_hit _ _ _ _ _ _ _ _ _ _ _ _ V B1 W E2 Ei) as (k & Ek & H).
  pose proof (slot_lt fp vs h r keys vals hint V s1 B1 p pos i Ei) as Hi.
  pose proof (v_vals _ _ _ _ _ V) as LV. pose proof (fv_length vs h r keys vals V i Hi) as FL. unfold fv in FL. rewrite firstn_length in FL.
  exists i, k, (nval vals i). eexists. split; auto. split; [apply nval_some; lia|]. split; [exact H|]. split.
  { unfold sl_read. cbn [sl_len sl_off sl_part]. apply (arr_chunk fp vs h r keys vals hint V s1 B1 p pos i Ei). }
  split. { unfold sl_write. cbn [sl_len sl_off sl_part]. rewrite (proj2 (Nat.ltb_lt _ _) Hj). reflexivity. }
  rewrite <- (overwrite_one (nval vals i)) by lia. apply (overwrite_slot fp vs h r keys vals hint V s1 B1 p pos i j [b]); auto. cbn. lia.
Qed.

(** Appending at most one value's length to what Get returned. *)
Theorem get_append fp vs h r keys vals hint s q sl xs : valid_input vs h r keys vals -> built fp vs h r keys vals hint s -> wf_bytes q = true ->
  surf_slice fp s q = Ok (Some sl) -> 0 < length xs <= vs ->
  exists i k v, nth_error keys i = Some k /\ nth_error vals i = Some v /\ hit_by fp h r (ld_height (s_ld s)) keys k q /\ sl_read s sl = firstn vs v /\
    ((sl_cap s sl = vs /\ sl_append s sl xs = s) \/
     (exists i' v', i' < length keys /\ i' <> i /\ nth_error vals i' = Some v' /\
        built fp vs h r keys (set_nth vals i' (xs ++ skipn (length xs) v')) hint (sl_append s sl xs))).
Proof.
  intros V B W E Hx. destruct (slice_find _ _ _ _ _ _ _ _ _ _ V B W E) as (p & pos & E1 & E2).
  destruct (built_up _ _ _ _ _ _ _ _ V B) as (s1 & B1 & ->). destruct (slot_of_slice _ _ _ _ _ _ _ _ _ _ _ V B1 E1) as (-> & SL).
  destruct (SL ltac:(lia)) as (i & Ei). rewrite find_up in E2. destruct (find_hit _ _ _ _ _ _ _ _ _ _ _ _ V B1 W E2 Ei) as (k & Ek & H).
  pose proof (slot_lt fp vs h r keys vals hint V s1 B1 p pos i Ei) as Hi.
  pose proof (v_vals _ _ _ _ _ V) as LV.
  exists i, k, (nval vals i). split; auto. split; [apply nval_some; lia|]. split; [exact H|]. split.
  { unfold sl_read. cbn [sl_len sl_off sl_part]. apply (arr_chunk fp vs h r keys vals hint V s1 B1 p pos i Ei). }
  pose proof (arr_length fp vs h r keys vals hint V s1 B1 p) as AL.
  assert (LP : pos < length (arr s1 p)) by (apply nth_error_Some; congruence).
  unfold sl_append, sl_cap. cbn [sl_len sl_off sl_part]. fold (arr (ups (nval vals) vs s1) p). rewrite AL.
  destruct (nth_error (arr s1 p) (S pos)) as [i'|] eqn:Ei'.
  - right. assert (LP' : S pos < length (arr s1 p)) by (apply nth_error_Some; congruence).
    pose proof (slot_lt fp vs h r keys vals hint V s1 B1 p (S pos) i' Ei') as Hi'.
    exists i', (nval vals i'). split; auto. split. { intros ->. destruct (slot_inj fp vs h r keys vals hint V s1 B1 _ _ _ _ _ Ei Ei'). lia. }
    split; [apply nval_some; lia|]. rewrite (proj2 (Nat.leb_le _ _)) by nia.
    pose proof (overwrite_slot fp vs h r keys vals hint V s1 B1 p (S pos) i' 0 xs Ei' ltac:(lia)) as O.
    replace (S pos * vs + 0) with (pos * vs + vs) in O by lia. exact O.
  - left. apply nth_error_None in Ei'. assert (length (arr s1 p) = S pos) as EQ by lia. rewrite EQ. split; [lia|].
    destruct (Nat.leb_spec (vs + length xs) (vs * S pos - pos * vs)); [lia|reflexivity].
Qed.

(** Appending any number of bytes to any slice: other keys may get other values, the slice's
    own value stays, and the keys are untouched. *)
Theorem slice_append fp vs h r keys vals hint s p pos sl xs : valid_input vs h r keys vals -> built fp vs h r keys vals hint s ->
  value_slice s p pos = Ok sl ->
  exists vals', valid_input vs h r keys vals' /\ built fp vs h r keys vals' hint (sl_append s sl xs) /\
    sl_read (sl_append s sl xs) sl = sl_read s sl.
Proof.
  intros V B E. unfold sl_append. destruct (Nat.leb_spec (sl_len sl + length xs) (sl_cap s sl)) as [L|L]; [|exists vals; auto].
  destruct (built_up _ _ _ _ _ _ _ _ V B) as (s1 & B1 & ->). destruct (slot_of_slice _ _ _ _ _ _ _ _ _ _ _ V B1 E) as (-> & SL).
  unfold sl_cap in L. cbn [sl_len sl_off sl_part] in *. set (s := ups (nval vals) vs s1) in *. fold (arr s p) in L |- *.
  assert (LB : length xs = 0 \/ pos * vs + vs + length xs <= length (arr s p)) by lia.
  assert (LB' : pos * vs + vs <= length (arr s p)).
  { unfold value_slice in E. fold (arr s p) in E. assert (SZ : vv_valueSize (part_values s p) = vs) by (destruct p; reflexivity). rewrite SZ in E.
    destruct (Nat.leb_spec (pos * vs + vs) (length (arr s p))); [lia|discriminate]. }
  assert (LX : pos * vs + vs + length xs <= length (arr s p)) by lia. clear LB.
  set (X := overwrite (arr s p) (pos * vs + vs) xs). assert (XL : length X = length (arr s p)) by (unfold X; now apply overwrite_length).
  pose proof (set_bytes_arrays vs vals s1 p X) as SB. fold s in SB. rewrite SB. clear SB.
  set (D := match p with DensePart => X | SparsePart => arr s DensePart end). set (S := match p with DensePart => arr s SparsePart | SparsePart => X end).
  assert (LD : length D = length (arr s DensePart)) by (unfold D; destruct p; auto).
  assert (LS : length S = length (arr s SparsePart)) by (unfold S; destruct p; auto).
  exists (new_vals vs vals s1 D S). split; [eapply new_valid; eauto|]. split; [eapply arrays_built; eauto|].
  unfold sl_read. cbn [sl_len sl_off sl_part]. change (vv_bytes (part_values s p)) with (arr s p).
  replace (vv_bytes (part_values (with_arrays vs vals s1 D S) p)) with X by (destruct p; reflexivity).
  apply list_eq_nth_error. intros t. destruct (Nat.lt_ge_cases t vs) as [T|T].
  - rewrite !nth_error_firstn', !nth_error_skipn' by auto. unfold X. rewrite nth_error_overwrite by lia.
    destruct (Nat.leb_spec (pos * vs + vs) (pos * vs + t)); [lia|reflexivity].
  - rewrite !(proj2 (nth_error_None _ _)); auto; rewrite firstn_length; lia.
Qed.

Lemma set_nth_valid vs h r keys vals i v j b : valid_input vs h r keys vals -> nth_error vals i = Some v -> valid_input vs h r keys (set_nth vals i (set_nth v j b)).
Proof.
  intros V E. destruct V as [v1 v2 v3 v4 v5 v6 v7 v8]. constructor; auto; [now rewrite set_nth_length|].
  rewrite Forall_forall in v6. apply Forall_forall. intros w Hw. apply In_nth_error in Hw as (t & Et).
  assert (T : t < length keys). { assert (X : t < length (firstn (length keys) (set_nth vals i (set_nth v j b)))) by (apply nth_error_Some; congruence). rewrite firstn_length in X. lia. }
  rewrite nth_error_firstn' in Et by auto. rewrite nth_error_set_nth in Et.
  assert (IN : forall t w, t < length keys -> nth_error vals t = Some w -> vs <= length w) by (intros t' w' T' X; apply v6; apply (nth_error_In _ t'); now rewrite nth_error_firstn').
  destruct (Nat.eqb_spec i t) as [EQ|N]; [subst t|now apply (IN t)].
  destruct (Nat.ltb i (length vals)); [|discriminate]. assert (w = set_nth v j b) as -> by congruence. rewrite set_nth_length. now apply (IN i).
Qed.

(** What later calls see. *)
Theorem get_write_seen fp vs h r keys vals hint s i k v sl j b : valid_input vs h r keys vals -> built fp vs h r keys vals hint s ->
  nth_error keys i = Some k -> nth_error vals i = Some v -> surf_slice fp s k = Ok (Some sl) -> j < vs ->
  exists s', sl_write s sl j b = Ok s' /\
    surf_get fp s' k = Ok (Some (firstn vs (set_nth v j b))) /\
    forall i' k', nth_error keys i' = Some k' -> i' <> i -> surf_get fp s' k' = surf_get fp s k'.
Proof.
  intros V B Ek Ev E Hj.
  assert (E0 : surf_slice fp s k = Ok (Some sl)) by exact E. unfold surf_slice in E0. destruct (surf_find fp s k) as [[[p pos]|]| |] eqn:EF; cbn [bind] in E0; try discriminate.
  destruct (value_slice s p pos) as [x| |] eqn:E1; cbn [bind] in E0; try discriminate. assert (x = sl) by (apply OkI in E0; congruence). subst x. clear E0.
  destruct (built_up _ _ _ _ _ _ _ _ V B) as (s1 & B1 & ->). destruct (slot_of_slice _ _ _ _ _ _ _ _ _ _ _ V B1 E1) as (-> & SL).
  destruct (find_stored fp vs h r keys vals hint V s1 B1 i k Ek) as (p' & pos' & F' & Ei). rewrite find_up, F' in EF.
  assert (p' = p /\ pos' = pos) as [-> ->] by (apply OkI in EF; inversion EF; auto). clear EF F'.
  pose proof (slot_lt fp vs h r keys vals hint V s1 B1 p pos i Ei) as Hi.
  pose proof (v_vals _ _ _ _ _ V) as LV. pose proof (fv_length vs h r keys vals V i Hi) as FL. unfold fv in FL. rewrite firstn_length in FL.
  assert (EN : nval vals i = v) by (rewrite (nval_some vals i) in Ev by lia; congruence).
  pose proof (overwrite_slot fp vs h r keys vals hint V s1 B1 p pos i j [b] Ei ltac:(cbn; lia)) as O. rewrite overwrite_one, EN in O by lia.
  eexists. split. { unfold sl_write. cbn [sl_len sl_off sl_part]. rewrite (proj2 (Nat.ltb_lt _ _) Hj). reflexivity. }
  fold (arr (ups (nval vals) vs s1) p). pose proof (set_nth_valid _ _ _ _ _ _ _ j b V Ev) as V'. split.
  - eapply get_stored; eauto. apply nth_error_set_nth_eq. lia.
  - intros i' k' Ek' NE. destruct (nth_error vals i') as [v'|] eqn:Ev'; [|apply nth_error_None in Ev'; assert (i' < length keys) by (apply nth_error_Some; congruence); lia].
    rewrite (get_stored _ _ _ _ _ _ _ _ _ _ _ V B Ek' Ev'). eapply get_stored; eauto. rewrite nth_error_set_nth_ne by auto. exact Ev'.
Qed.

(** The same for the slice that Value returned, wherever the iterator is. *)
Theorem value_write fp vs h r keys vals hint s it sl j b : valid_input vs h r keys vals -> built fp vs h r keys vals hint s ->
  it_slice s it = Ok sl -> j < vs ->
  exists i v s', i < length keys /\ nth_error vals i = Some v /\ it_value s it = Ok (firstn vs v) /\
    sl_write s sl j b = Ok s' /\ built fp vs h r keys (set_nth vals i (set_nth v j b)) hint s'.
Proof.
  intros V B E Hj. pose proof (value_reads_slice s it) as RV. rewrite E in RV. cbn [mapres] in RV.
  unfold it_slice in E. destruct (it_find s it) as [[p pos]| |]; cbn [bind] in E; try discriminate.
  destruct (slice_write _ _ _ _ _ _ _ _ _ _ _ j b V B E) as (i & v & s' & H1 & H2 & H3 & H4 & H5).
  { destruct (built_up _ _ _ _ _ _ _ _ V B) as (s1 & B1 & ->). destruct (slot_of_slice _ _ _ _ _ _ _ _ _ _ _ V B1 E) as (-> & _). exact Hj. }
  exists i, v, s'. split; auto. split; auto. split; [congruence|]. split; auto.
Qed.
