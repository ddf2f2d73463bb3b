(** * What Build produces: the vectors of the filter represent the level-order trie. *)
From Verif Require Import Base BitsModel BitsFacts VecModel VecProofs VecProofs2 SurfModel SurfTrie SurfSuffix SurfBuild SurfDense.
Ltac Zify.zify_post_hook ::= Z.div_mod_to_equations.

(* ------------------------------------------------------------------ *)
(** ** Concatenating the levels *)

Lemma Forall2_firstn {A B} (R : A -> B -> Prop) k : forall l l', Forall2 R l l' -> Forall2 R (firstn k l) (firstn k l').
Proof. induction k; intros l l' H; [constructor|]. destruct H; constructor; auto. Qed.
Lemma Forall2_skipn {A B} (R : A -> B -> Prop) k : forall l l', Forall2 R l l' -> Forall2 R (skipn k l) (skipn k l').
Proof. induction k; intros l l' H; [exact H|]. destruct H; cbn [skipn]; auto. Qed.

Lemma levels_concat {A} (f : A -> list N) (num : A -> nat) (g : list tnode -> list bool) (ls : list A) NSS :
  Forall2 (fun lv ns => level_ok (f lv) (num lv) /\ rep (f lv) (g ns) /\ num lv = length (g ns)) ls NSS ->
  Forall2 level_ok (map f ls) (map num ls) /\ concat_levels (map f ls) (map num ls) = concat (map g NSS).
Proof.
  induction 1 as [|lv ns ls NSS (H1 & H2 & H3) H [IH1 IH2]]; [split; [constructor|reflexivity]|].
  cbn [map]. split; [constructor; auto|]. unfold concat_levels in *. cbn [combine map concat fst snd].
  rewrite IH2. f_equal. rewrite H3. now apply rep_bits_of.
Qed.

Lemma firstn_map_len {A B} (f : A -> B) (l : list A) n : n = length l -> firstn n (map f l) = map f l.
Proof. intros ->. rewrite <- (map_length f). apply firstn_all. Qed.
Lemma skipn_map_len {A B} (f : A -> B) (l : list A) n : n = length l -> skipn n (map f l) = [].
Proof. intros ->. rewrite <- (map_length f). apply skipn_all. Qed.

Lemma concat_map_concat {A B} (f : A -> list B) (LL : list (list A)) : concat (map (flat_map f) LL) = flat_map f (concat LL).
Proof. induction LL; [reflexivity|]. cbn [map concat]. now rewrite flat_map_app, IHLL. Qed.
Lemma concat_map_map {A B} (f : A -> B) (LL : list (list A)) : concat (map (map f) LL) = map f (concat LL).
Proof. induction LL; [reflexivity|]. cbn [map concat]. now rewrite map_app, IHLL. Qed.
Lemma concat_map_mapflat {A B C} (f : B -> C) (g : A -> list B) (LL : list (list A)) :
  concat (map (fun ns => map f (flat_map g ns)) LL) = map f (flat_map g (concat LL)).
Proof. induction LL; [reflexivity|]. cbn [map concat]. now rewrite flat_map_app, map_app, IHLL. Qed.
Lemma concat_map_filter {A B C} (h : B -> C) (p : B -> bool) (g : A -> list B) (LL : list (list A)) :
  concat (map (fun ns => map h (filter p (flat_map g ns))) LL) = map h (filter p (flat_map g (concat LL))).
Proof. induction LL; [reflexivity|]. cbn [map concat]. now rewrite flat_map_app, filter_app, map_app, IHLL. Qed.

(* ------------------------------------------------------------------ *)
(** ** Representation of the filter *)

Section Enc.
Variable fp : bytes -> N.
Variable c : config.

Notation slen := (c_suffixLen c).

Definition cfg_ok : Prop :=
  c_type c = (if Nat.eqb (c_hashLen c) 0 && Nat.eqb (c_realLen c) 0 then NoneSuffix
           else if Nat.eqb (c_hashLen c) 0 then RealSuffix
           else if Nat.eqb (c_realLen c) 0 then HashSuffix
           else MixedSuffix) /\ slen <= 64.

Definition leaves (ns : list tnode) : list item := filter leafb (flat_map items ns).

Definition sx_rep (xv : suffixVector) (its : list item) : Prop :=
  (xv_type xv = c_type c /\ (c_type c = NoneSuffix -> xv = zeroSuffixes)) /\
  (c_type c <> NoneSuffix ->
    xv_hashLen xv = c_hashLen c /\ xv_realLen xv = c_realLen c /\ bv_rep (xv_bv xv) (sufbits c (map (sufv fp c) its))).

Definition vv_rep (vv : valueVector) (its : list item) : Prop :=
  vv_valueSize vv = c_valueSize c /\ vv_bytes vv = flat_map (ivalue c) its.

Record ld_rep (ld : loudsDense) (h : nat) (DN : list tnode) : Prop := {
  ldr_label : rv_rep rankDenseBlockSize (ld_label ld) (flat_map (fun n => dlab (items n)) DN);
  ldr_hasc : rv_rep rankDenseBlockSize (ld_hasChild ld) (flat_map (fun n => dhas (items n)) DN);
  ldr_isp : exists pad, rv_rep rankDenseBlockSize (ld_isPrefix ld) (map nterm DN ++ repeat false pad);
  ldr_suf : sx_rep (ld_suffixes ld) (leaves DN);
  ldr_val : vv_rep (ld_values ld) (leaves DN);
  ldr_pre : pv_rep (ld_prefix ld) (map nprefix DN);
  ldr_h : ld_height ld = h
}.

Record ls_rep (ls : loudsSparse) (height h : nat) (DN SN : list tnode) : Prop := {
  lsr_height : ls_height ls = height;
  lsr_start : ls_startLevel ls = h;
  lsr_dn : ls_denseNodeCount ls = length DN;
  lsr_dc : ls_denseChildCount ls = length (filter hasc (flat_map items DN));
  lsr_label : ls_label ls = map i_label (flat_map items SN) ++ [0];
  lsr_hasc : rv_rep rankSparseBlockSize (ls_hasChild ls) (map hasc (flat_map items SN));
  lsr_louds : sv_rep (ls_louds ls) (flat_map loudsb SN);
  lsr_suf : sx_rep (ls_suffixes ls) (leaves SN);
  lsr_val : vv_rep (ls_values ls) (leaves SN);
  lsr_pre : pv_rep (ls_prefix ls) (map nprefix SN)
}.

Lemma lreps_in lvs NSS : Forall2 (fun lv ns => lrep fp c lv ns []) lvs NSS -> Forall nwf (concat NSS).
Proof.
  induction 1 as [|lv ns lvs NSS R H IH]; [constructor|]. cbn [concat]. apply Forall_app. split; auto. apply R.
Qed.

(** Suffix vectors. *)
Lemma suf_init lvs NSS : cfg_ok -> lreps fp c lvs NSS ->
  exists xv, (if suffixType_eqb (c_type c) NoneSuffix then Ok zeroSuffixes else
     suffixVector_init (c_type c) (c_hashLen c) (c_realLen c) (map lv_suffixes lvs)
       (map (fun lv => lv_suffixCount lv * (c_hashLen c + c_realLen c)) lvs)) = Ok xv /\ sx_rep xv (leaves (concat NSS)).
Proof.
  intros [CT CL] R. destruct (suffixType_eqb (c_type c) NoneSuffix) eqn:E.
  - exists zeroSuffixes. split; auto. split; [split; [destruct (c_type c); try discriminate; reflexivity|auto]|].
    intros H. exfalso. destruct (c_type c); try discriminate. congruence.
  - assert (NZ : slen <> 0).
    { intros Z. unfold c_suffixLen in Z. rewrite CT in E. replace (c_hashLen c) with 0 in E by lia. replace (c_realLen c) with 0 in E by lia. discriminate. }
    destruct (levels_concat lv_suffixes (fun lv => lv_suffixCount lv * slen)
      (fun ns => sufbits c (map (sufv fp c) (leaves ns))) lvs NSS) as [F1 F2].
    { induction R as [|lv ns lvs NSS R0 R IH]; constructor; auto.
      pose proof (r_suf _ _ _ _ _ R0) as [S|[S1 S2]]; [lia|]. rewrite app_nil_r in *. fold (leaves ns) in *.
      pose proof (r_sufn _ _ _ _ _ R0) as SN. rewrite app_nil_r in SN. fold (leaves ns) in SN.
      assert (L : lv_suffixCount lv * slen = length (sufbits c (map (sufv fp c) (leaves ns)))) by (rewrite sufbits_length, map_length; congruence).
      split; [|split; auto]. destruct S1 as [W G]. split; auto. split.
      - rewrite S2, map_length, SN. apply numWords_bound.
      - intros i Hi. rewrite G. apply nth_overflow. lia. }
    assert (LL : length (map lv_suffixes lvs) = length lvs) by apply map_length.
    unfold suffixVector_init. fold (c_suffixLen c).
    destruct (bitVector_init_correct (map lv_suffixes lvs) (map (fun lv => lv_suffixCount lv * slen) lvs)) as (v & E1 & R1).
    { rewrite (firstn_map_len _ lvs _ LL). exact F1. }
    fold slen. rewrite E1. cbn [bind]. eexists. split; [reflexivity|]. split; [split; [reflexivity|intros X; rewrite X in E; discriminate]|]. intros _.
    cbn [xv_hashLen xv_realLen xv_bv]. split; auto. split; auto.
    rewrite (skipn_map_len _ lvs _ LL) in R1. cbn [nsum fold_right repeat] in R1. rewrite app_nil_r, F2 in R1.
    replace (concat (map (fun ns => sufbits c (map (sufv fp c) (leaves ns))) NSS)) with (sufbits c (map (sufv fp c) (leaves (concat NSS)))) in R1; auto.
    clear. induction NSS as [|ns NSS IH]; [reflexivity|]. cbn [concat map]. rewrite <- IH. unfold leaves, sufbits.
    rewrite flat_map_app, filter_app, map_app, flat_map_app. reflexivity.
Qed.

Lemma val_init lvs NSS : lreps fp c lvs NSS -> vv_rep (valueVector_init (map lv_values lvs) (c_valueSize c)) (leaves (concat NSS)).
Proof.
  intros R. split; [reflexivity|]. cbn [valueVector_init vv_bytes].
  induction R as [|lv ns lvs NSS R0 R IH]; [reflexivity|]. cbn [map concat]. rewrite IH, (r_vals _ _ _ _ _ R0), app_nil_r.
  unfold leaves. now rewrite flat_map_app, filter_app, flat_map_app.
Qed.

Lemma pre_init lvs NSS : lreps fp c lvs NSS -> fits32 (length (concat (map nprefix (concat NSS)))) ->
  exists pv, prefixVec_init (map lv_hasPrefix lvs) (map lv_nodeCount lvs) (map lv_prefixes lvs) = Ok pv /\ pv_rep pv (map nprefix (concat NSS)).
Proof.
  intros R HF.
  destruct (levels_concat lv_hasPrefix lv_nodeCount (fun ns => map nonempty (map nprefix ns)) lvs NSS) as [F1 F2].
  { clear HF. induction R as [|lv ns lvs NSS R0 R IH]; constructor; auto.
    pose proof (r_hasp _ _ _ _ _ R0) as W. rewrite map_map.
    pose proof (wrep_level _ _ W) as W2. rewrite map_length in W2. rewrite (r_count _ _ _ _ _ R0).
    split; auto. split; [apply W|]. now rewrite map_length. }
  apply (prefixVec_init_spec _ _ _ (map nprefix (concat NSS)) 0).
  - rewrite (firstn_map_len _ lvs) by apply map_length. exact F1.
  - rewrite (skipn_map_len _ lvs) by apply map_length. cbn [nsum fold_right repeat]. rewrite !app_nil_r, F2.
    rewrite <- (concat_map_map nprefix), concat_map, map_map. reflexivity.
  - clear F1 F2 HF. induction R as [|lv ns lvs NSS R0 R IH]; [reflexivity|]. cbn [map concat]. rewrite IH, (r_pre _ _ _ _ _ R0), map_app, filter_app. reflexivity.
  - exact HF.
Qed.

Lemma hasc_init lvs NSS : lreps fp c lvs NSS ->
  exists v, rankVectorSparse_init (map lv_hasChild lvs) (map numItems lvs) = Ok v /\ rv_rep rankSparseBlockSize v (map hasc (flat_map items (concat NSS))).
Proof.
  intros R. destruct (levels_concat lv_hasChild numItems (fun ns => map hasc (flat_map items ns)) lvs NSS) as [F1 F2].
  { induction R as [|lv ns lvs NSS R0 R IH]; constructor; auto.
    pose proof (r_hasc _ _ _ _ _ R0) as W. pose proof (lrep_numItems _ _ _ _ _ R0) as HN. rewrite app_nil_r in *.
    pose proof (wrep_level _ _ W) as W2. rewrite map_length in *. rewrite HN. split; auto. split; [apply W|reflexivity]. }
  destruct (rankVector_init_spec rankSparseBlockSize (map lv_hasChild lvs) (map numItems lvs)) as (v & E & RV).
  - unfold rankSparseBlockSize. lia. - reflexivity.
  - rewrite (firstn_map_len _ lvs) by apply map_length. exact F1.
  - exists v. split; [exact E|]. rewrite (skipn_map_len _ lvs) in RV by apply map_length. cbn [nsum fold_right repeat] in RV.
    rewrite app_nil_r, F2, concat_map_mapflat in RV. exact RV.
Qed.

Lemma louds_init lvs NSS : lreps fp c lvs NSS ->
  exists v, selectVector_init (map lv_louds lvs) (map numItems lvs) = Ok v /\ sv_rep v (flat_map loudsb (concat NSS)).
Proof.
  intros R. destruct (levels_concat lv_louds numItems (flat_map loudsb) lvs NSS) as [F1 F2].
  { induction R as [|lv ns lvs NSS R0 R IH]; constructor; auto.
    pose proof (r_louds _ _ _ _ _ R0) as W. pose proof (lrep_numItems _ _ _ _ _ R0) as HN. cbn [length repeat] in W. rewrite app_nil_r in *.
    pose proof (wrep_level _ _ W) as W2. rewrite HN. rewrite <- (loudsb_length ns (r_wf _ _ _ _ _ R0)). split; auto. split; [apply W|reflexivity]. }
  destruct (selectVector_init_spec (map lv_louds lvs) (map numItems lvs)) as (v & E & RV).
  - rewrite (firstn_map_len _ lvs) by apply map_length. exact F1.
  - exists v. split; [exact E|]. rewrite (skipn_map_len _ lvs) in RV by apply map_length. cbn [nsum fold_right repeat] in RV.
    rewrite app_nil_r, F2, concat_map_concat in RV. exact RV.
Qed.

Lemma label_init lvs NSS start : lreps fp c lvs NSS ->
  labelVector_init (map lv_labels lvs) start (length lvs) = map i_label (flat_map items (concat (skipn start NSS))) ++ [0].
Proof.
  intros R. unfold labelVector_init. f_equal. rewrite firstn_all2 by (rewrite skipn_length, map_length; lia).
  rewrite skipn_map. assert (R' := Forall2_skipn _ start _ _ R). induction R' as [|lv ns l l' R0 R1 IH]; [reflexivity|].
  cbn [map concat]. rewrite IH, (r_labels _ _ _ _ _ R0), app_nil_r, flat_map_app, map_app. reflexivity.
Qed.

(* ------------------------------------------------------------------ *)
(** ** buildDense *)

Lemma upd_end {A} (l : list A) x y k : k = length l -> upd (l ++ [x]) k y = Ok (l ++ [y]).
Proof. intros ->.
  unfold upd. rewrite app_length. cbn [length]. destruct (Nat.ltb_spec (length l) (length l + 1)); [|lia]. now rewrite set_nth_app_end.
Qed.

Definition dense_reps (NSS : list (list tnode)) (ldl ldh ldp : list (list N)) : Prop :=
  Forall2 (fun ns w => rep w (flat_map (fun n => dlab (items n)) ns) /\ length w = 4 * length ns) NSS ldl /\
  Forall2 (fun ns w => rep w (flat_map (fun n => dhas (items n)) ns) /\ length w = 4 * length ns) NSS ldh /\
  Forall2 (fun ns w => rep w (map nterm ns) /\ length w = prefixWords (length ns)) NSS ldp.

Lemma Forall2_snoc {A B} (R : A -> B -> Prop) l l' a b : Forall2 R l l' -> R a b -> Forall2 R (l ++ [a]) (l' ++ [b]).
Proof. intros. apply Forall2_app; auto. Qed.

Lemma buildDense_spec lvs NSS todo : forall done b,
  lreps fp c lvs NSS -> Forall (fun ns => ns <> [] /\ Forall (fun n => 2 <= length (tn_kvs n)) ns) (firstn (length done + todo) NSS) ->
  done = firstn (length done) NSS -> length done + todo <= length NSS -> b_levels b = lvs ->
  length (b_ldLabels b) = length done -> length (b_ldHasChild b) = length done -> length (b_ldIsPrefix b) = length done ->
  dense_reps done (b_ldLabels b) (b_ldHasChild b) (b_ldIsPrefix b) ->
  exists ldl ldh ldp, buildDense_loop todo (length done) b =
      Ok (mkBuilder (b_sparseStart b) (b_valueSize b) (b_totalCount b) lvs ldl ldh ldp (b_type b) (b_hashLen b) (b_realLen b)) /\
    dense_reps (firstn (length done + todo) NSS) ldl ldh ldp /\
    length ldl = length done + todo /\ length ldh = length done + todo /\ length ldp = length done + todo.
Proof.
  induction todo as [|todo IH]; intros done b R H2 HD HL HB L1 L2 L3 D.
  - rewrite Nat.add_0_r. rewrite <- HD. cbn [buildDense_loop]. destruct b. cbn in *. subst. eexists _, _, _. repeat split; auto; apply D.
  - cbn [buildDense_loop]. rewrite HB.
    destruct (nth_error NSS (length done)) as [ns|] eqn:En; [|apply nth_error_None in En; lia].
    assert (exists lv, nth_error lvs (length done) = Some lv /\ lrep fp c lv ns []) as (lv & El & R0).
    { clear -R En. revert En. generalize (length done). induction R as [|lv0 ns0 lvs NSS R0 R IH]; intros [|k] E; cbn in *; try discriminate.
      - inversion E; subst. eauto. - apply IH. auto. }
    rewrite (proj2 (idx_Ok lvs (length done) lv) El). cbn [bind].
    rewrite !idx_mid by auto. cbn [bind].
    assert (FN : firstn (S (length done)) NSS = done ++ [ns]).
    { rewrite HD at 2. clear -En. revert En. generalize (length done). intros k. revert NSS. induction k; intros [|x NSS] E; cbn in *; try discriminate.
      - now inversion E. - f_equal. auto. }
    assert (INn : In ns (firstn (length done + S todo) NSS)).
    { rewrite <- (firstn_skipn (S (length done)) (firstn (length done + S todo) NSS)). rewrite firstn_firstn.
      replace (Nat.min (S (length done)) (length done + S todo)) with (S (length done)) by lia. rewrite FN.
      apply in_or_app. left. apply in_or_app. right. left. auto. }
    rewrite Forall_forall in H2. destruct (H2 _ INn) as [Nne N2].
    destruct (buildDense_level_spec fp c lv ns R0 Nne N2) as (lab & hc & ip & E & DR). rewrite E. cbn [bind].
    rewrite (upd_end (b_ldLabels b)) by auto. cbn [bind]. rewrite (upd_end (b_ldHasChild b)) by auto. cbn [bind]. rewrite (upd_end (b_ldIsPrefix b)) by auto. cbn [bind].
    match goal with |- exists _ _ _, buildDense_loop todo _ ?b' = _ /\ _ => specialize (IH (done ++ [ns]) b') end.
    rewrite app_length in IH. cbn [length b_levels b_ldLabels b_ldHasChild b_ldIsPrefix b_sparseStart b_valueSize b_totalCount b_type b_hashLen b_realLen] in IH.
    replace (length done + 1 + todo) with (length done + S todo) in IH by lia.
    replace (length done + 1) with (S (length done)) in IH by lia.
    apply IH; auto.
    + rewrite Forall_forall. exact H2.
    + rewrite app_length. cbn [length]. lia.
    + rewrite app_length. cbn [length]. lia.
    + rewrite app_length. cbn [length]. lia.
    + destruct D as (D1 & D2 & D3). destruct DR as (A1 & A2 & A3 & A4 & A5 & A6).
      split; [|split]; apply Forall2_snoc; auto.
Qed.

Lemma dense_concat (g : tnode -> list bool) NSS ws : (forall n, length (g n) = 256) ->
  Forall2 (fun ns w => rep w (flat_map g ns) /\ length w = 4 * length ns) NSS ws ->
  Forall2 level_ok ws (map (fun w => length w * 64) ws) /\ concat_levels ws (map (fun w => length w * 64) ws) = flat_map g (concat NSS).
Proof.
  intros HG H. 
  destruct (levels_concat (fun w : list N => w) (fun w => length w * 64) (flat_map g) ws NSS) as [F1 F2].
  { induction H as [|ns w NSS ws [H1 H2] H IH]; constructor; auto.
    assert (L : length (flat_map g ns) = length w * 64) by (rewrite (flat_map_const g 256) by auto; lia).
    split; auto. destruct H1 as [W G]. split; auto. split; [lia|]. intros i Hi. rewrite G. apply nth_overflow. lia. }
  rewrite map_id in *. split; auto. rewrite F2. apply concat_map_concat.
Qed.

Lemma ld_init_spec b NSS ldl ldh ldp h :
  cfg_ok -> b_config b = c -> lreps fp c (b_levels b) NSS -> h <= length NSS ->
  b_sparseStart b = h -> b_ldLabels b = ldl -> b_ldHasChild b = ldh -> b_ldIsPrefix b = ldp ->
  length ldl = h -> length ldh = h -> length ldp = h -> dense_reps (firstn h NSS) ldl ldh ldp ->
  fits32 (length (concat (map nprefix (concat (firstn h NSS))))) ->
  exists ld, ld_init b = Ok ld /\ ld_rep ld h (concat (firstn h NSS)).
Proof.
  intros CO Hc R Hh Es E1 E2 E3 L1 L2 L3 (D1 & D2 & D3) HF.
  assert (LV : length (b_levels b) = length NSS) by (eapply Forall2_length; exact R).
  unfold ld_init. rewrite Es, E1, E2, E3.
  rewrite !slice_firstn by lia. cbn [bind].
  rewrite (firstn_all2 (n:=h) ldl) by lia. rewrite (firstn_all2 (n:=h) ldh) by lia. rewrite (firstn_all2 (n:=h) ldp) by lia.
  assert (R' : lreps fp c (firstn h (b_levels b)) (firstn h NSS)) by (apply Forall2_firstn; exact R).
  destruct (dense_concat (fun n => dlab (items n)) _ _ (fun n => dlab_length _) D1) as [A1 A2].
  destruct (dense_concat (fun n => dhas (items n)) _ _ (fun n => dhas_length _) D2) as [B1 B2].
  assert (NUM : map (fun w : list N => length w * 64) ldh = map (fun w : list N => length w * 64) ldl).
  { clear -D1 D2. revert D1 D2. generalize (firstn h NSS). intros X D1. revert ldh. induction D1 as [|ns w X ws [_ H] D IH]; intros ldh D2; inversion D2; subst; [reflexivity|].
    cbn [map]. f_equal; [|now apply IH]. destruct H2 as [_ H2]. lia. }
  rewrite NUM in B1, B2.
  destruct (rankVector_init_spec rankDenseBlockSize ldl (map (fun w => length w * 64) ldl)) as (v1 & V1 & RV1).
  { unfold rankDenseBlockSize. lia. } { reflexivity. } { rewrite (firstn_map_len _ ldl) by auto. exact A1. }
  rewrite (skipn_map_len _ ldl) in RV1 by auto. cbn [nsum fold_right repeat] in RV1. rewrite app_nil_r, A2 in RV1.
  destruct (rankVector_init_spec rankDenseBlockSize ldh (map (fun w => length w * 64) ldl)) as (v2 & V2 & RV2).
  { unfold rankDenseBlockSize. lia. } { reflexivity. } { rewrite (firstn_map_len _ ldl) by lia. exact B1. }
  rewrite (skipn_map_len _ ldl) in RV2 by lia. cbn [nsum fold_right repeat] in RV2. rewrite app_nil_r, B2 in RV2.
  (* isPrefix *)
  destruct (levels_concat fst snd (map nterm) (combine ldp (map lv_nodeCount (firstn h (b_levels b)))) (firstn h NSS)) as [C1 C2].
  { clear -D3 R'. revert D3 R'. generalize (firstn h NSS) (firstn h (b_levels b)). intros X Y D. revert Y. induction D as [|ns w X ws [H1 H2] D IH]; intros Y R'; inversion R'; subst; [constructor|].
    cbn [map combine]. constructor; [|now apply IH]. cbn [fst snd].
    match goal with H : lrep _ _ _ _ _ |- _ => rewrite (r_count _ _ _ _ _ H) end. destruct H1 as [W G].
    split; [|split; [split; auto|now rewrite map_length]]. split; auto. split.
    - rewrite H2. unfold prefixWords. destruct (Nat.eqb_spec (length ns mod 64) 0); lia.
    - intros i Hi. rewrite G. apply nth_overflow. now rewrite map_length. }
  assert (LC : length ldp = length (map lv_nodeCount (firstn h (b_levels b)))) by (rewrite map_length, firstn_length; lia).
  assert (SP : map fst (combine ldp (map lv_nodeCount (firstn h (b_levels b)))) = ldp /\ map snd (combine ldp (map lv_nodeCount (firstn h (b_levels b)))) = map lv_nodeCount (firstn h (b_levels b))).
  { revert LC. generalize (map lv_nodeCount (firstn h (b_levels b))). clear. intros Y. revert Y. induction ldp as [|w l IH]; intros [|y Y] L; cbn in *; try lia; [auto|].
    destruct (IH Y) as [I1 I2]; [lia|]. now rewrite I1, I2. }
  destruct SP as [SP1 SP2]. rewrite SP1, SP2 in C1, C2.
  destruct (rankVector_init_spec rankDenseBlockSize ldp (map lv_nodeCount (b_levels b))) as (v3 & V3 & RV3).
  { unfold rankDenseBlockSize. lia. } { reflexivity. } { rewrite L3, firstn_map. exact C1. }
  assert (C3 : concat_levels ldp (map lv_nodeCount (b_levels b)) = map nterm (concat (firstn h NSS))).
  { rewrite <- concat_map_map, <- C2. unfold concat_levels. f_equal. f_equal.
    rewrite <- (firstn_skipn h (b_levels b)) at 1. rewrite map_app.
    revert LC. generalize (map lv_nodeCount (firstn h (b_levels b))) (map lv_nodeCount (skipn h (b_levels b))). clear. intros Y Z. revert Y.
    induction ldp as [|w l IH]; intros [|y Y] L; cbn in *; try lia; [reflexivity|]. f_equal. apply IH. lia. }
  rewrite C3 in RV3.
  unfold rankVectorDense_init. rewrite V1. cbn [bind]. rewrite V2. cbn [bind]. rewrite V3. cbn [bind].
  assert (Hcs : b_type b = c_type c /\ b_hashLen b = c_hashLen c /\ b_realLen b = c_realLen c /\ b_valueSize b = c_valueSize c) by (rewrite <- Hc; repeat split).
  destruct Hcs as (H1 & H2 & H3 & H4). rewrite H1, H2, H3, H4.
  destruct (suf_init _ _ CO R') as (xv & X1 & X2). rewrite X1. cbn [bind].
  destruct (pre_init _ _ R' HF) as (pv & P1 & P2). rewrite P1. cbn [bind].
  eexists. split; [reflexivity|]. constructor; cbn [ld_label ld_hasChild ld_isPrefix ld_suffixes ld_values ld_prefix ld_height]; auto.
  - eexists. exact RV3.
  - apply val_init. exact R'.
Qed.

Lemma ls_init_spec b NSS h :
  cfg_ok -> b_config b = c -> lreps fp c (b_levels b) NSS -> h < length NSS -> linked NSS ->
  (exists root, nth_error NSS 0 = Some [root]) ->
  b_sparseStart b = h -> fits32 (length (concat (map nprefix (concat (skipn h NSS))))) ->
  exists ls, ls_init b = Ok ls /\ ls_rep ls (length NSS) h (concat (firstn h NSS)) (concat (skipn h NSS)).
Proof.
  intros CO Hc R Hh HLk (root & Hroot) Es HF.
  assert (LV : length (b_levels b) = length NSS) by (eapply Forall2_length; exact R).
  unfold ls_init. rewrite Es. rewrite slice_firstn by lia. cbn [bind].
  assert (DNC : nsum (map lv_nodeCount (firstn h (b_levels b))) = length (concat (firstn h NSS))).
  { assert (R' := Forall2_firstn _ h _ _ R). induction R' as [|lv ns l l' R0 R1 IH]; [reflexivity|]. cbn [map concat]. unfold nsum in *. cbn [fold_right].
    rewrite app_length, (r_count _ _ _ _ _ R0), IH. reflexivity. }
  rewrite DNC.
  assert (DCC : (if Nat.eqb h 0 then Ok 0 else lv <- idx (b_levels b) h ;; sub_chk (length (concat (firstn h NSS)) + lv_nodeCount lv) 1) =
    Ok (length (filter hasc (flat_map items (concat (firstn h NSS)))))).
  { destruct h as [|h']; [reflexivity|]. cbn [Nat.eqb].
    destruct (nth_error NSS (S h')) as [ns|] eqn:En; [|apply nth_error_None in En; lia].
    assert (exists lv, nth_error (b_levels b) (S h') = Some lv /\ lrep fp c lv ns []) as (lv & El & R0).
    { clear -R En. revert En. generalize (S h'). induction R as [|lv0 ns0 lvs NSS R0 R IH]; intros [|k] E; cbn in *; try discriminate.
      - inversion E; subst. eauto. - apply IH. auto. }
    rewrite (proj2 (idx_Ok (b_levels b) (S h') lv) El). cbn [bind]. rewrite (r_count _ _ _ _ _ R0).
    pose proof (linked_firstn NSS HLk h') as LF. rewrite flat_map_children in LF. apply (f_equal (@length _)) in LF. rewrite map_length in LF. rewrite LF.
    destruct NSS as [|L0 NSS']; [discriminate|]. cbn [nth_error] in Hroot. inversion Hroot; subst L0.
    change (firstn (S (S h')) ([root] :: NSS')) with ([root] :: firstn (S h') NSS'). change (firstn (S h') ([root] :: NSS')) with ([root] :: firstn h' NSS').
    cbn [tl concat app length]. cbn [nth_error] in En. unfold sub_chk.
    destruct (Nat.leb_spec 1 (S (length (concat (firstn h' NSS'))) + length ns)); [|lia]. f_equal.
    assert (FS : firstn (S h') NSS' = firstn h' NSS' ++ [ns]).
    { clear -En. revert NSS' En. induction h'; intros [|x l] E; cbn in *; try discriminate; [now inversion E|]. f_equal. auto. }
    rewrite FS, concat_app, app_length. cbn [concat]. rewrite app_nil_r. lia. }
  rewrite DCC. cbn [bind]. unfold slice_from. destruct (Nat.leb_spec h (length (b_levels b))); [|lia]. cbn [bind].
  assert (R' : lreps fp c (skipn h (b_levels b)) (skipn h NSS)) by (apply Forall2_skipn; exact R).
  destruct (hasc_init _ _ R') as (v1 & V1 & RV1). rewrite V1. cbn [bind].
  destruct (louds_init _ _ R') as (v2 & V2 & RV2). rewrite V2. cbn [bind].
  assert (Hcs : b_type b = c_type c /\ b_hashLen b = c_hashLen c /\ b_realLen b = c_realLen c /\ b_valueSize b = c_valueSize c) by (rewrite <- Hc; repeat split).
  destruct Hcs as (H1 & H2 & H3 & H4). rewrite H1, H2, H3, H4.
  destruct (suf_init _ _ CO R') as (xv & X1 & X2). rewrite X1. cbn [bind].
  destruct (pre_init _ _ R' HF) as (pv & P1 & P2). rewrite P1. cbn [bind].
  eexists. split; [reflexivity|]. constructor; cbn [ls_height ls_startLevel ls_denseNodeCount ls_denseChildCount ls_label ls_hasChild ls_louds ls_suffixes ls_values ls_prefix]; auto.
  - now apply label_init.
  - now apply val_init.
Qed.
End Enc.
