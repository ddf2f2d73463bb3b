(** * SurfAliasProofs: filters built from the same keys differ only in their values, and
    writing through a returned slice gives such a filter. *)
From Verif Require Import Base BitsModel VecModel SurfModel SurfIter SurfTrie SurfBuild SurfEnc SurfBuildTop SurfSpec SurfTop SurfSize SurfAlias.

Definition mapres {A B} (f : A -> B) (x : res A) : res B := match x with Ok a => Ok (f a) | Panic => Panic | Hang => Hang end.

(* ------------------------------------------------------------------ *)
(** ** Build with the positions of the keys as values *)

Section Hom.
Variable fp : bytes -> N.
Variable val : nat -> bytes.
Variables vs h r : nat.
Variable tp : SuffixType.
Let c := mkConfig vs tp h r.
Let c1 := mkConfig 1 tp h r.
Definition fv (i : nat) : bytes := firstn vs (val i).

Definition upkv (e : kv) : kv := (fst e, val (hd 0 (snd e))).
Definition okkv (e : kv) : Prop := exists i, snd e = [i] /\ vs <= length (val i).
Definition up (lv : level) : level := set_values lv (flat_map fv (lv_values lv)) (lv_valueCount lv).

Ltac unf := unfold up, set_values, set_labels, set_bits, set_suffixes, set_prefix, set_nodeCount, set_lastTerm.
Ltac prj := cbn [lv_labels lv_hasChild lv_louds lv_suffixes lv_suffixCount lv_values lv_valueCount lv_hasPrefix lv_prefixes lv_nodeCount lv_lastTerm].
Ltac prjin H := cbn [lv_labels lv_hasChild lv_louds lv_suffixes lv_suffixCount lv_values lv_valueCount lv_hasPrefix lv_prefixes lv_nodeCount lv_lastTerm] in H.

Lemma up_insertSuffix key d lv : insertSuffix fp c key d (up lv) = mapres up (insertSuffix fp c1 key d lv).
Proof.
  unfold insertSuffix, c_suffixLen. subst c c1. unf. prj. cbn [c_type c_realLen c_hashLen].
  destruct (constructSuffix fp key (d + 1) tp r h) as [x| |]; cbn [bind mapres]; auto.
  destruct (or_at _ _ _) as [y| |]; cbn [bind mapres]; auto.
Qed.

Lemma up_insertValue e lv : okkv e -> insertValue c (snd (upkv e)) (up lv) = mapres up (insertValue c1 (snd e) lv).
Proof.
  intros (i & E & L). unfold insertValue, upkv. rewrite E. subst c c1. cbn [snd fst hd c_valueSize].
  unfold slice. cbn [length Nat.leb Nat.sub andb skipn]. rewrite (proj2 (Nat.leb_le _ _) L), Nat.sub_0_r. cbn [bind mapres firstn].
  unf. prj. rewrite flat_map_app. cbn [flat_map]. rewrite app_nil_r. reflexivity.
Qed.

Lemma up_slot lv : moveToNextItemSlot (up lv) = up (moveToNextItemSlot lv).
Proof. unfold moveToNextItemSlot, numItems. unf. prj. now destruct (Nat.eqb _ _). Qed.

Lemma up_term e d lv : okkv e -> addTerminator fp c (upkv e) d (up lv) = mapres up (addTerminator fp c1 e d lv).
Proof.
  intros O. unfold addTerminator.
  replace (set_lastTerm (set_labels (up lv) (lv_labels (up lv) ++ [labelTerminator])) true) with (up (set_lastTerm (set_labels lv (lv_labels lv ++ [labelTerminator])) true)) by reflexivity.
  cbn [upkv fst]. rewrite up_insertSuffix. destruct (insertSuffix _ _ _ _ _) as [x| |]; cbn [bind mapres]; auto.
  change (snd (fst e, val (hd 0 (snd e)))) with (snd (upkv e)). rewrite up_insertValue by auto.
  destruct (insertValue _ _ _) as [y| |]; cbn [bind mapres]; auto. now rewrite up_slot.
Qed.

Lemma up_leaf e b d lv : okkv e -> addLeaf fp c (upkv e) b d (up lv) = mapres up (addLeaf fp c1 e b d lv).
Proof.
  intros O. unfold addLeaf.
  replace (set_labels (up lv) (lv_labels (up lv) ++ [b])) with (up (set_labels lv (lv_labels lv ++ [b]))) by reflexivity.
  rewrite up_slot. cbn [upkv fst]. rewrite up_insertSuffix. destruct (insertSuffix _ _ _ _ _) as [x| |]; cbn [bind mapres]; auto.
  change (snd (fst e, val (hd 0 (snd e)))) with (snd (upkv e)). now rewrite up_insertValue by auto.
Qed.

Lemma up_inner b lv : addInner b (up lv) = mapres up (addInner b lv).
Proof.
  unfold addInner. replace (set_labels (up lv) (lv_labels (up lv) ++ [b])) with (up (set_labels lv (lv_labels lv ++ [b]))) by reflexivity.
  rewrite up_slot. set (l := moveToNextItemSlot _). unfold numItems. unf. prj.
  destruct (sub_chk _ _) as [x| |]; cbn [bind mapres]; auto. destruct (setBit _ _) as [y| |]; cbn [bind mapres]; auto.
Qed.

Lemma up_finish p n lv : finishNode p n (up lv) = mapres up (finishNode p n lv).
Proof.
  unfold finishNode. destruct p as [|x p]; cbn [bind].
  - unf. prj. destruct (setBit _ _) as [y| |]; cbn [bind mapres]; auto.
  - unfold insertPrefix. unf. prj. destruct (setBit (lv_hasPrefix lv) _) as [y| |]; cbn [bind mapres]; auto.
    prj. destruct (setBit (lv_louds lv) _) as [z| |]; cbn [bind mapres]; auto.
Qed.

Lemma nth_error_map_up {A B} (f : A -> B) l i : nth_error (map f l) i = option_map f (nth_error l i).
Proof. revert i. induction l as [|x l IH]; intros [|i]; cbn; auto. Qed.
Lemma idx_map {A B} (f : A -> B) l i : idx (map f l) i = mapres f (idx l i).
Proof. unfold idx. rewrite nth_error_map_up. now destruct (nth_error l i). Qed.
Lemma set_nth_map {A B} (f : A -> B) l : forall i x, set_nth (map f l) i (f x) = map f (set_nth l i x).
Proof. induction l as [|y l IH]; intros [|i] x; cbn; auto. now rewrite IH. Qed.
Lemma upd_map {A B} (f : A -> B) l i x : upd (map f l) i (f x) = mapres (map f) (upd l i x).
Proof. unfold upd. rewrite map_length, set_nth_map. now destruct (Nat.ltb _ _). Qed.
Lemma firstn_map' {A B} (f : A -> B) l : forall n, firstn n (map f l) = map f (firstn n l).
Proof. induction l as [|y l IH]; intros [|i]; cbn; auto. now rewrite IH. Qed.
Lemma skipn_map' {A B} (f : A -> B) l : forall n, skipn n (map f l) = map f (skipn n l).
Proof. induction l as [|y l IH]; intros [|i]; cbn; auto. Qed.
Lemma slice_map {A B} (f : A -> B) l a b : slice (map f l) a b = mapres (map f) (slice l a b).
Proof. unfold slice. rewrite map_length, skipn_map', firstn_map'. now destruct (_ && _). Qed.
Lemma slice_from_map {A B} (f : A -> B) l a : slice_from (map f l) a = mapres (map f) (slice_from l a).
Proof. unfold slice_from. rewrite map_length, skipn_map'. now destruct (Nat.leb _ _). Qed.

Lemma upd_level_up ls i f g : (forall lv, f (up lv) = mapres up (g lv)) -> upd_level (map up ls) i f = mapres (map up) (upd_level ls i g).
Proof.
  intros H. unfold upd_level. rewrite idx_map. destruct (idx ls i) as [lv| |]; cbn [bind mapres]; auto.
  rewrite H. destruct (g lv) as [x| |]; cbn [bind mapres]; auto. apply upd_map.
Qed.
Lemma ensure_up ls i : ensureLevel (map up ls) i = map up (ensureLevel ls i).
Proof. unfold ensureLevel. rewrite map_length. destruct (Nat.leb _ _); auto. now rewrite map_app. Qed.

Lemma slice_ok {A} (P : A -> Prop) l a b x : Forall P l -> slice l a b = Ok x -> Forall P x.
Proof.
  intros F. unfold slice. destruct (_ && _); [|discriminate]. intros E. assert (x = firstn (b - a) (skipn a l)) as -> by congruence.
  apply Forall_forall. intros y Hy. rewrite Forall_forall in F. apply F. rewrite <- (firstn_skipn a l). apply in_or_app. right.
  rewrite <- (firstn_skipn (b - a) (skipn a l)). apply in_or_app. now left.
Qed.
Lemma idx_ok {A} (P : A -> Prop) l i x : Forall P l -> idx l i = Ok x -> P x.
Proof.
  intros F. unfold idx. destruct (nth_error l i) eqn:E; [|discriminate]. intros X. assert (a = x) as -> by congruence.
  rewrite Forall_forall in F. apply F. eapply nth_error_In; eauto.
Qed.

Lemma up_group rec1 rec2 kvs d i : Forall okkv kvs ->
  (forall ks pd d i ls, Forall okkv ks -> rec1 (map upkv ks) pd d i (map up ls) = mapres (map up) (rec2 ks pd d i ls)) ->
  forall todo gs ge ls, group_loop fp rec1 c (map upkv kvs) d i todo gs ge (map up ls) = mapres (option_map (map up)) (group_loop fp rec2 c1 kvs d i todo gs ge ls).
Proof.
  intros F H. induction todo as [|todo IH]; intros gs ge ls; cbn [group_loop mapres option_map]; auto.
  rewrite map_length, !idx_map.
  assert (X : (if Nat.ltb ge (length kvs) then es <- mapres upkv (idx kvs gs) ;; ee <- mapres upkv (idx kvs ge) ;; bs <- idx (fst es) d ;; be <- idx (fst ee) d ;; Ok (Nat.eqb bs be) else Ok false)
            = (if Nat.ltb ge (length kvs) then es <- idx kvs gs ;; ee <- idx kvs ge ;; bs <- idx (fst es) d ;; be <- idx (fst ee) d ;; Ok (Nat.eqb bs be) else Ok false)).
  { destruct (Nat.ltb _ _); auto. destruct (idx kvs gs) as [x| |]; cbn [bind mapres]; auto. destruct (idx kvs ge) as [y| |]; cbn [bind mapres]; auto. }
  rewrite X. clear X. match goal with |- context [bind ?x _] => destruct x as [same| |] end; cbn [bind mapres]; auto.
  destruct same; [apply IH|]. destruct (_ && _); auto.
  destruct (idx kvs gs) as [es| |] eqn:E; cbn [bind mapres]; auto. cbn [upkv fst].
  destruct (idx (fst es) d) as [b| |]; cbn [bind mapres]; auto.
  destruct (Nat.eqb (ge - gs) 1).
  - change (fst es, val (hd 0 (snd es))) with (upkv es).
    rewrite (upd_level_up ls i _ (addLeaf fp c1 es b d)) by (intros lv; apply up_leaf; exact (idx_ok _ _ _ _ F E)).
    destruct (upd_level _ _ _) as [x| |]; cbn [bind mapres]; auto.
  - rewrite (upd_level_up ls i _ (addInner b)) by (intros lv; apply up_inner).
    destruct (upd_level _ _ _) as [x| |]; cbn [bind mapres]; auto.
    rewrite slice_map. destruct (slice kvs gs ge) as [sub| |] eqn:ES; cbn [bind mapres]; auto.
    rewrite H by (exact (slice_ok _ _ _ _ _ F ES)). destruct (rec2 _ _ _ _ _) as [y| |]; cbn [bind mapres]; auto.
Qed.

Lemma up_nodes fuel : forall kvs pd d i ls, Forall okkv kvs ->
  buildNodes fp fuel c (map upkv kvs) pd d i (map up ls) = mapres (map up) (buildNodes fp fuel c1 kvs pd d i ls).
Proof.
  induction fuel as [|fuel IH]; intros kvs pd d i ls F; cbn [buildNodes]; auto.
  rewrite ensure_up, idx_map. destruct (idx (ensureLevel ls i) i) as [lv| |]; cbn [bind mapres]; auto.
  rewrite idx_map. destruct (idx kvs 0) as [e0| |] eqn:E0; cbn [bind mapres]; auto. cbn [upkv fst].
  change (fst e0, val (hd 0 (snd e0))) with (upkv e0). rewrite map_length. change (numItems (up lv)) with (numItems lv).
  assert (K : forall ls0 gs, (r <- group_loop fp (buildNodes fp fuel c) c (map upkv kvs) d i (length kvs + 1 - gs) gs gs (map up ls0) ;;
     match r with None => buildNodes fp fuel c (map upkv kvs) pd (d + 1) i (map up ls0)
     | Some ls => prefix <- (if Nat.ltb pd d then slice (fst e0) pd d else Ok []) ;; upd_level ls i (finishNode prefix (numItems lv)) end)
     = mapres (map up) (r <- group_loop fp (buildNodes fp fuel c1) c1 kvs d i (length kvs + 1 - gs) gs gs ls0 ;;
     match r with None => buildNodes fp fuel c1 kvs pd (d + 1) i ls0
     | Some ls => prefix <- (if Nat.ltb pd d then slice (fst e0) pd d else Ok []) ;; upd_level ls i (finishNode prefix (numItems lv)) end)).
  { intros ls0 gs. rewrite (up_group (buildNodes fp fuel c) (buildNodes fp fuel c1)) by auto.
    destruct (group_loop fp (buildNodes fp fuel c1) _ _ _ _ _ _ _ _) as [[x|]| |]; cbn [bind mapres option_map]; auto.
    destruct (if Nat.ltb pd d then _ else _) as [p| |]; cbn [bind mapres]; auto. apply upd_level_up. intros lv0. apply up_finish. }
  destruct (Nat.leb (length (fst e0)) d).
  - rewrite (upd_level_up _ i _ (addTerminator fp c1 e0 d)) by (intros lv0; apply up_term; exact (idx_ok _ _ _ _ F E0)).
    destruct (upd_level (ensureLevel ls i) i (addTerminator fp c1 e0 d)) as [x| |]; cbn [bind mapres]; auto.
  - cbn [bind]. apply K.
Qed.

(** The rest of Build. *)
Definition upb (b : builder) : builder :=
  mkBuilder (b_sparseStart b) vs (b_totalCount b) (map up (b_levels b)) (b_ldLabels b) (b_ldHasChild b) (b_ldIsPrefix b) (b_type b) (b_hashLen b) (b_realLen b).
Definition upvv (v : valueVector) : valueVector := mkVV (flat_map fv (vv_bytes v)) vs.
Definition upld (ld : loudsDense) : loudsDense := ld_setValues ld (upvv (ld_values ld)).
Definition upls (ls : loudsSparse) : loudsSparse := ls_setValues ls (upvv (ls_values ls)).
Definition ups (s : surf) : surf := mkSurf (upld (s_ld s)) (upls (s_ls s)).

Lemma fold_left_ext {A B} (f g : A -> B -> A) : (forall a b, f a b = g a b) -> forall l a, fold_left f l a = fold_left g l a.
Proof. intros H. induction l as [|x l IH]; intros a; cbn; auto. now rewrite H, IH. Qed.
Lemma fold_left_map {A B C} (f : A -> B -> A) (g : C -> B) : forall l a, fold_left f (map g l) a = fold_left (fun a x => f a (g x)) l a.
Proof. induction l as [|x l IH]; intros a; cbn; auto. Qed.

Lemma count_up ls k : match nth_error (map up ls) k with Some lv => N.of_nat (lv_nodeCount lv) | None => 0%N end
  = match nth_error ls k with Some lv => N.of_nat (lv_nodeCount lv) | None => 0%N end.
Proof. rewrite nth_error_map_up. now destruct (nth_error ls k). Qed.
Lemma dense_size_up ls l : denseSizeNoSuffix (map up ls) l = denseSizeNoSuffix ls l.
Proof. unfold denseSizeNoSuffix. apply fold_left_ext. intros a b. cbv zeta. now rewrite !count_up. Qed.
Lemma sparse_size_up ls l : sparseSizeNoSuffix (map up ls) l = sparseSizeNoSuffix ls l.
Proof. unfold sparseSizeNoSuffix. rewrite skipn_map', fold_left_map. reflexivity. Qed.
Lemma cutoff_up ls ex sz : forall l, cutoff l (map up ls) ex sz = cutoff l ls ex sz.
Proof. induction l as [|l IH]; cbn [cutoff]; auto. now rewrite dense_size_up, sparse_size_up, IH. Qed.
Lemma determine_up ls n sl hint : determineCutoffLevel (map up ls) n sl hint = determineCutoffLevel ls n sl hint.
Proof. unfold determineCutoffLevel. rewrite cutoff_up, map_length, !map_map. reflexivity. Qed.

Lemma dense_loop_up lv : forall todo pos n lab hc ip, dense_loop todo pos n (up lv) lab hc ip = dense_loop todo pos n lv lab hc ip.
Proof.
  induction todo as [|todo IH]; intros pos n lab hc ip; cbn [dense_loop]; auto.
  change (isTerminator (up lv) pos) with (isTerminator lv pos). change (lv_louds (up lv)) with (lv_louds lv).
  destruct (readBit _ _) as [st| |]; cbn [bind]; auto. destruct (if st then isTerminator lv pos else Ok false) as [t| |]; cbn [bind]; auto.
  destruct t.
  - destruct (setBit _ _) as [y| |]; cbn [bind]; auto.
  - change (setLabelAndHasChild (up lv)) with (setLabelAndHasChild lv).
    destruct (setLabelAndHasChild _ _ _ _ _) as [[x y]| |]; cbn [bind]; auto.
Qed.
Lemma dense_level_up lv lab hc ip : buildDense_level (up lv) lab hc ip = buildDense_level lv lab hc ip.
Proof.
  unfold buildDense_level. change (numItems (up lv)) with (numItems lv). destruct (Nat.eqb _ _); auto.
  change (isTerminator (up lv) 0) with (isTerminator lv 0). change (setLabelAndHasChild (up lv)) with (setLabelAndHasChild lv).
  destruct (isTerminator lv 0) as [t| |]; cbn [bind]; auto.
  destruct (if t then _ else _) as [[[x y] z]| |]; cbn [bind]; auto. apply dense_loop_up.
Qed.
Lemma dense_up : forall todo l b, buildDense_loop todo l (upb b) = mapres upb (buildDense_loop todo l b).
Proof.
  induction todo as [|todo IH]; intros l b; cbn [buildDense_loop mapres]; auto.
  change (b_levels (upb b)) with (map up (b_levels b)). rewrite idx_map. destruct (idx (b_levels b) l) as [lv| |]; cbn [bind mapres]; auto.
  change (lv_nodeCount (up lv)) with (lv_nodeCount lv).
  change (b_ldLabels (upb b)) with (b_ldLabels b). change (b_ldHasChild (upb b)) with (b_ldHasChild b). change (b_ldIsPrefix (upb b)) with (b_ldIsPrefix b).
  destruct (idx (b_ldLabels b ++ _) l) as [lab| |]; cbn [bind mapres]; auto.
  destruct (idx (b_ldHasChild b ++ _) l) as [hc| |]; cbn [bind mapres]; auto.
  destruct (idx (b_ldIsPrefix b ++ _) l) as [ip| |]; cbn [bind mapres]; auto.
  rewrite dense_level_up. destruct (buildDense_level lv lab hc ip) as [[[x y] z]| |]; cbn [bind mapres]; auto.
  destruct (upd _ l x) as [x'| |]; cbn [bind mapres]; auto. destruct (upd _ l y) as [y'| |]; cbn [bind mapres]; auto.
  destruct (upd _ l z) as [z'| |]; cbn [bind mapres]; auto. rewrite <- IH. reflexivity.
Qed.

Lemma concat_flat ls : concat (map (fun lv => lv_values (up lv)) ls) = flat_map fv (concat (map lv_values ls)).
Proof. induction ls as [|lv ls IH]; cbn [map concat]; auto. rewrite flat_map_app, <- IH. reflexivity. Qed.

Lemma ld_up b : ld_init (upb b) = mapres upld (ld_init b).
Proof.
  unfold ld_init. cbn [upb b_sparseStart b_ldLabels b_ldHasChild b_ldIsPrefix b_levels b_type b_hashLen b_realLen b_valueSize].
  destruct (slice (b_ldLabels b) _ _) as [x1| |]; cbn [bind mapres]; auto.
  destruct (slice (b_ldHasChild b) _ _) as [x2| |]; cbn [bind mapres]; auto.
  destruct (slice (b_ldIsPrefix b) _ _) as [x3| |]; cbn [bind mapres]; auto.
  rewrite slice_map. destruct (slice (b_levels b) _ _) as [lvs| |]; cbn [bind mapres]; auto.
  destruct (rankVectorDense_init x1 _) as [y1| |]; cbn [bind mapres]; auto.
  destruct (rankVectorDense_init x2 _) as [y2| |]; cbn [bind mapres]; auto.
  rewrite !map_map. cbn [lv_nodeCount up set_values].
  destruct (rankVectorDense_init x3 _) as [y3| |]; cbn [bind mapres]; auto.
  cbn [lv_suffixes lv_suffixCount lv_hasPrefix lv_prefixes].
  destruct (if suffixType_eqb _ _ then _ else _) as [y4| |]; cbn [bind mapres]; auto.
  destruct (prefixVec_init _ _ _) as [y5| |]; cbn [bind mapres]; auto.
  unfold upld, ld_setValues, upvv, valueVector_init. cbn [ld_label ld_hasChild ld_isPrefix ld_suffixes ld_values ld_prefix ld_height vv_bytes].
  rewrite <- concat_flat. reflexivity.
Qed.

Lemma map_up {A} (f : level -> A) l : (forall lv, f (up lv) = f lv) -> map f (map up l) = map f l.
Proof. intros H. rewrite map_map. apply map_ext. exact H. Qed.

Lemma ls_up b : ls_init (upb b) = mapres upls (ls_init b).
Proof.
  unfold ls_init. cbn [upb b_sparseStart b_ldLabels b_ldHasChild b_ldIsPrefix b_levels b_type b_hashLen b_realLen b_valueSize].
  rewrite slice_map. destruct (slice (b_levels b) _ _) as [dl| |]; cbn [bind mapres]; auto.
  rewrite (map_up lv_nodeCount), map_length, idx_map by reflexivity.
  assert (X : (if Nat.eqb (b_sparseStart b) 0 then Ok 0 else lv <- mapres up (idx (b_levels b) (b_sparseStart b)) ;; sub_chk (nsum (map lv_nodeCount dl) + lv_nodeCount lv) 1)
    = (if Nat.eqb (b_sparseStart b) 0 then Ok 0 else lv <- idx (b_levels b) (b_sparseStart b) ;; sub_chk (nsum (map lv_nodeCount dl) + lv_nodeCount lv) 1)).
  { destruct (Nat.eqb _ _); auto. destruct (idx _ _) as [lv| |]; cbn [bind mapres]; auto. }
  rewrite X. clear X.
  destruct (if Nat.eqb (b_sparseStart b) 0 then _ else _) as [dcc| |]; cbn [bind mapres]; auto.
  rewrite slice_from_map. destruct (slice_from (b_levels b) _) as [sl| |]; cbn [bind mapres]; auto.
  rewrite (map_up lv_labels), (map_up lv_hasChild), (map_up numItems), (map_up lv_louds), (map_up lv_suffixes), (map_up lv_hasPrefix), (map_up lv_prefixes), (map_up lv_nodeCount) by reflexivity.
  rewrite (map_up (fun lv => lv_suffixCount lv * (b_hashLen b + b_realLen b))) by reflexivity.
  destruct (rankVectorSparse_init _ _) as [y1| |]; cbn [bind mapres]; auto.
  destruct (selectVector_init _ _) as [y2| |]; cbn [bind mapres]; auto.
  destruct (if suffixType_eqb _ _ then _ else _) as [y4| |]; cbn [bind mapres]; auto.
  destruct (prefixVec_init _ _ _) as [y5| |]; cbn [bind mapres]; auto.
  unfold upls, ls_setValues, upvv, valueVector_init.
  cbn [ls_height ls_startLevel ls_denseNodeCount ls_denseChildCount ls_label ls_hasChild ls_louds ls_suffixes ls_values ls_prefix vv_bytes].
  rewrite map_map, <- concat_flat. reflexivity.
Qed.
End Hom.


(* ------------------------------------------------------------------ *)
(** ** The filter as a function of the values *)

Definition ivals (n : nat) : list bytes := map (fun i => [i]) (seq 0 n).
Definition nval (vals : list bytes) (i : nat) : bytes := nth i vals [].

Lemma zip_combine keys : forall vals, length keys <= length vals -> zip_kvs keys vals = Ok (combine keys vals).
Proof. induction keys as [|k ks IH]; intros [|v vs] H; cbn in *; auto; [lia|]. rewrite IH by lia. reflexivity. Qed.

Lemma skipn_cons_inv {A} (d v : A) l : forall m w, skipn m l = v :: w -> skipn (S m) l = w /\ nth m l d = v.
Proof. induction l as [|x l IH]; intros [|m] w E; cbn in *; try discriminate; [inversion E; auto|]. apply IH in E. exact E. Qed.

Lemma up_combine vals keys : forall m, length keys <= length (skipn m vals) ->
  map (upkv (nval vals)) (combine keys (map (fun i => [i]) (seq m (length keys)))) = combine keys (skipn m vals).
Proof.
  induction keys as [|k ks IH]; intros m H; [reflexivity|]. cbn [length seq map combine].
  destruct (skipn m vals) as [|v w] eqn:E; [cbn in H; lia|]. 
  destruct (skipn_cons_inv [] v vals m w E) as [E1 E2].
  rewrite IH by (rewrite E1; cbn in H; lia). rewrite E1. f_equal. unfold upkv, nval. cbn [fst snd hd]. now rewrite E2.
Qed.

Lemma ivals_ok vs vals keys : length keys <= length vals -> Forall (fun v => vs <= length v) (firstn (length keys) vals) ->
  Forall (okkv (nval vals) vs) (combine keys (ivals (length keys))).
Proof.
  intros L F. apply Forall_forall. intros [k v] H. apply in_combine_r in H. unfold ivals in H. apply in_map_iff in H as (i & <- & H). apply in_seq in H.
  exists i. split; [reflexivity|]. rewrite Forall_forall in F. apply F. unfold nval.
  rewrite <- (firstn_skipn (length keys) vals) at 1. rewrite app_nth1 by (rewrite firstn_length; lia). apply nth_In. rewrite firstn_length. lia.
Qed.

Section Values.
Variable fp : bytes -> N.
Variables vs h r : nat.
Variables keys vals : list bytes.
Hypothesis L : length keys <= length vals.
Hypothesis F : Forall (fun v => vs <= length v) (firstn (length keys) vals).

Lemma build_up fuel hint :
  surf_build fp fuel (newBuilder vs h r) keys vals hint =
  mapres (fun p => (ups (nval vals) vs (fst p), upb (nval vals) vs (snd p))) (surf_build fp fuel (newBuilder 1 h r) keys (ivals (length keys)) hint).
Proof.
  unfold surf_build. rewrite zip_combine by auto. rewrite (zip_combine keys (ivals (length keys))) by (unfold ivals; rewrite map_length, seq_length; auto).
  cbn [bind]. pose proof (up_combine vals keys 0) as U. cbn [skipn] in U. specialize (U L). rewrite <- U. clear U. fold (ivals (length keys)).
  unfold newBuilder. set (tp := if Nat.eqb h 0 && Nat.eqb r 0 then _ else _).
  unfold b_config. cbn [b_levels b_valueSize b_type b_hashLen b_realLen b_ldLabels b_ldHasChild b_ldIsPrefix].
  pose proof (up_nodes fp (nval vals) vs h r tp fuel (combine keys (ivals (length keys))) 0 0 0 [] (ivals_ok vs vals keys L F)) as N.
  cbn [map] in N. rewrite N. clear N. destruct (buildNodes _ _ _ _ _ _ _ _) as [lvs| |]; cbn [bind mapres]; auto.
  rewrite determine_up. set (start := determineCutoffLevel _ _ _ _).
  change (mkBuilder start vs (length keys) (map (up (nval vals) vs) lvs) [] [] [] tp h r) with (upb (nval vals) vs (mkBuilder start 1 (length keys) lvs [] [] [] tp h r)).
  rewrite dense_up. destruct (buildDense_loop _ _ _) as [b| |]; cbn [bind mapres]; auto.
  rewrite (map_up (nval vals) vs lv_hasPrefix), (map_up (nval vals) vs lv_nodeCount), (map_up (nval vals) vs lv_prefixes) by reflexivity.
  destruct (prefixVec_init _ _ _) as [pv| |]; cbn [bind mapres]; auto.
  rewrite ld_up, ls_up. destruct (ld_init b) as [ld| |]; cbn [bind mapres]; auto. destruct (ls_init b) as [ls| |]; cbn [bind mapres]; auto.
Qed.
End Values.

Lemma ivals_valid vs h r keys vals : valid_input vs h r keys vals -> valid_input 1 h r keys (ivals (length keys)).
Proof.
  intros V. destruct V. constructor; auto.
  - unfold ivals. now rewrite map_length, seq_length.
  - apply Forall_forall. intros v H. assert (In v (ivals (length keys))) as H' by (rewrite <- (firstn_skipn (length keys)); apply in_or_app; now left).
    unfold ivals in H'. apply in_map_iff in H' as (i & <- & _). cbn. lia.
Qed.

(** Two filters from the same keys are the same function of their values. *)
Lemma built_up fp vs h r keys vals hint s : valid_input vs h r keys vals -> built fp vs h r keys vals hint s ->
  exists s1, built fp 1 h r keys (ivals (length keys)) hint s1 /\ s = ups (nval vals) vs s1.
Proof.
  intros V (fuel & b & HF & E). rewrite build_up in E by apply V.
  destruct (surf_build fp fuel (newBuilder 1 h r) keys (ivals (length keys)) hint) as [[s1 b1]| |] eqn:E1; cbn [mapres fst snd] in E; try discriminate.
  exists s1. split; [exists fuel, b1; auto|]. apply OkI in E. congruence.
Qed.
Lemma up_built fp vs h r keys vals hint s1 : valid_input vs h r keys vals -> built fp 1 h r keys (ivals (length keys)) hint s1 ->
  built fp vs h r keys vals hint (ups (nval vals) vs s1).
Proof.
  intros V (fuel & b & HF & E). exists fuel, (upb (nval vals) vs b). split; auto. rewrite build_up by apply V. now rewrite E.
Qed.

(* ------------------------------------------------------------------ *)
(** ** Which value a lookup returns does not depend on the values *)

Lemma check_value_pos fp sv vv p key lvl : check_value fp sv vv p key lvl =
  (x <- check_pos fp sv p key lvl ;; match x with Some q => v <- valueVector_get vv q ;; Ok (Some v) | None => Ok None end).
Proof. unfold check_value, check_pos. destruct (checkEquality _ _ _ _ _) as [[]| |]; cbn [bind]; reflexivity. Qed.

Definition read_at (vv : valueVector) (x : option nat) : res (option bytes) :=
  match x with Some q => v <- valueVector_get vv q ;; Ok (Some v) | None => Ok None end.

Lemma ld_get_find fp ld key : forall todo n d, ld_get_loop fp todo ld key n d =
  (x <- ld_find_loop fp todo ld key n d ;; match x with DFound p => v <- read_at (ld_values ld) p ;; Ok (DAnswer v) | DGoOn a b => Ok (DCont a b) end).
Proof.
  induction todo as [|todo IH]; intros n d; cbn [ld_get_loop ld_find_loop bind]; auto.
  destruct (checkPrefix _ _ _ _) as [[pl []]| |]; cbn [bind negb]; auto.
  destruct (Nat.leb _ _).
  - destruct (rv_isSet _ _) as [[]| |]; cbn [bind]; auto. destruct (ld_suffixPos _ _ _) as [vp| |]; cbn [bind]; auto.
    rewrite check_value_pos. destruct (check_pos _ _ _ _ _) as [x| |]; cbn [bind]; auto.
  - destruct (idx key _) as [kb| |]; cbn [bind]; auto. destruct (rv_isSet (ld_label ld) _) as [[]| |]; cbn [bind negb]; auto.
    destruct (rv_isSet (ld_hasChild ld) _) as [[]| |]; cbn [bind negb]; auto.
    + destruct (ld_childNodeID _ _) as [x| |]; cbn [bind]; auto.
    + destruct (ld_suffixPos _ _ _) as [vp| |]; cbn [bind]; auto.
      rewrite check_value_pos. destruct (check_pos _ _ _ _ _) as [x| |]; cbn [bind]; auto.
Qed.

Lemma ls_end_find fp ls key pos d : ls_get_end fp ls key pos d = (x <- ls_find_end fp ls key pos d ;; read_at (ls_values ls) x).
Proof.
  unfold ls_get_end, ls_find_end. destruct (getLabel _ _) as [l| |]; cbn [bind]; auto.
  destruct (if Nat.eqb _ _ then _ else _) as [[]| |]; cbn [bind]; auto. destruct (ls_suffixPos _ _) as [vp| |]; cbn [bind]; auto.
  rewrite check_value_pos. reflexivity.
Qed.
Lemma ls_get_find fp ls key : forall fuel n pos d, ls_get_loop fp fuel ls key n pos d = (x <- ls_find_loop fp fuel ls key n pos d ;; read_at (ls_values ls) x).
Proof.
  induction fuel as [|fuel IH]; intros n pos d; cbn [ls_get_loop ls_find_loop]; (destruct (Nat.leb _ d); [apply ls_end_find|]); cbn [bind]; auto.
  destruct (ls_prefixID _ _) as [pid| |]; cbn [bind]; auto. destruct (checkPrefix _ _ _ _) as [[pl []]| |]; cbn [bind negb]; auto.
  destruct (Nat.leb _ _); [apply ls_end_find|]. destruct (idx key _) as [kb| |]; cbn [bind]; auto.
  destruct (ls_nodeSize _ _) as [sz| |]; cbn [bind]; auto. destruct (label_search _ _ _ _) as [[p []]| |]; cbn [bind negb]; auto.
  destruct (rv_isSet _ _) as [[]| |]; cbn [bind negb]; auto.
  - destruct (ls_childNodeID _ _) as [x| |]; cbn [bind]; auto. destruct (ls_firstLabelPos _ _) as [y| |]; cbn [bind]; auto.
  - destruct (ls_suffixPos _ _) as [vp| |]; cbn [bind]; auto. rewrite check_value_pos. reflexivity.
Qed.

Lemma get_find fp s q : surf_get fp s q =
  (x <- surf_find fp s q ;; match x with Some (p, pos) => v <- valueVector_get (part_values s p) pos ;; Ok (Some v) | None => Ok None end).
Proof.
  unfold surf_get, surf_find, ld_get, ls_get. rewrite ld_get_find. destruct (ld_find_loop _ _ _ _ _ _) as [[[p|]|n d]| |]; cbn [bind option_map read_at part_values]; auto.
  - destruct (valueVector_get _ _) as [v| |]; cbn [bind]; auto.
  - destruct (ls_firstLabelPos _ _) as [pos| |]; cbn [bind]; auto. rewrite ls_get_find.
    destruct (ls_find_loop _ _ _ _ _ _ _) as [[p|]| |]; cbn [bind option_map read_at part_values]; auto.
Qed.

Lemma value_slice_get s p pos : valueVector_get (part_values s p) pos = mapres (sl_read s) (value_slice s p pos).
Proof.
  unfold valueVector_get, value_slice, slice, sl_read. rewrite (proj2 (Nat.leb_le _ _)) by lia. cbn [andb].
  destruct (Nat.leb _ _); cbn [mapres]; auto. f_equal. cbn [sl_len sl_off sl_part]. f_equal. lia.
Qed.

(** Get reads the slice it returns. *)
Theorem get_reads_slice fp s q : surf_get fp s q = mapres (option_map (sl_read s)) (surf_slice fp s q).
Proof.
  rewrite get_find. unfold surf_slice. destruct (surf_find fp s q) as [[[p pos]|]| |]; cbn [bind mapres option_map]; auto.
  rewrite value_slice_get. destruct (value_slice s p pos) as [sl| |]; cbn [bind mapres option_map]; auto.
Qed.
Theorem value_reads_slice s it : it_value s it = mapres (sl_read s) (it_slice s it).
Proof.
  unfold it_value, it_slice, it_find, d_Value, p_Value. destruct (d_isComplete _).
  - destruct (idx _ _) as [x| |]; cbn [bind mapres]; auto. destruct (ld_suffixPos _ _ _) as [vp| |]; cbn [bind mapres]; auto. apply (value_slice_get s DensePart).
  - destruct (idx _ _) as [x| |]; cbn [bind mapres]; auto. destruct (ls_suffixPos _ _) as [vp| |]; cbn [bind mapres]; auto. apply (value_slice_get s SparsePart).
Qed.

Lemma find_up fp val vs s q : surf_find fp (ups val vs s) q = surf_find fp s q.
Proof.
  assert (D : forall todo n d, ld_find_loop fp todo (upld val vs (s_ld s)) q n d = ld_find_loop fp todo (s_ld s) q n d).
  { induction todo as [|todo IH]; intros n d; cbn [ld_find_loop]; auto.
    change (ld_prefix (upld val vs (s_ld s))) with (ld_prefix (s_ld s)). destruct (checkPrefix _ _ _ _) as [[pl []]| |]; cbn [bind negb]; auto.
    change (ld_suffixPos (upld val vs (s_ld s))) with (ld_suffixPos (s_ld s)). change (ld_suffixes (upld val vs (s_ld s))) with (ld_suffixes (s_ld s)).
    change (ld_isPrefix (upld val vs (s_ld s))) with (ld_isPrefix (s_ld s)). change (ld_label (upld val vs (s_ld s))) with (ld_label (s_ld s)).
    change (ld_hasChild (upld val vs (s_ld s))) with (ld_hasChild (s_ld s)). change (ld_childNodeID (upld val vs (s_ld s))) with (ld_childNodeID (s_ld s)).
    destruct (Nat.leb _ _); auto. destruct (idx q _) as [kb| |]; cbn [bind]; auto. destruct (rv_isSet (ld_label _) _) as [[]| |]; cbn [bind negb]; auto.
    destruct (rv_isSet _ _) as [[]| |]; cbn [bind negb]; auto. destruct (ld_childNodeID _ _) as [x| |]; cbn [bind]; auto. }
  assert (P : forall fuel n pos d, ls_find_loop fp fuel (upls val vs (s_ls s)) q n pos d = ls_find_loop fp fuel (s_ls s) q n pos d).
  { induction fuel as [|fuel IH]; intros n pos d; cbn [ls_find_loop]; change (ls_find_end fp (upls val vs (s_ls s))) with (ls_find_end fp (s_ls s)); destruct (Nat.leb _ d); auto.
    change (ls_prefixID (upls val vs (s_ls s))) with (ls_prefixID (s_ls s)). change (ls_prefix (upls val vs (s_ls s))) with (ls_prefix (s_ls s)).
    change (ls_nodeSize (upls val vs (s_ls s))) with (ls_nodeSize (s_ls s)). change (ls_label (upls val vs (s_ls s))) with (ls_label (s_ls s)).
    change (ls_hasChild (upls val vs (s_ls s))) with (ls_hasChild (s_ls s)). change (ls_suffixPos (upls val vs (s_ls s))) with (ls_suffixPos (s_ls s)).
    change (ls_suffixes (upls val vs (s_ls s))) with (ls_suffixes (s_ls s)). change (ls_childNodeID (upls val vs (s_ls s))) with (ls_childNodeID (s_ls s)).
    change (ls_firstLabelPos (upls val vs (s_ls s))) with (ls_firstLabelPos (s_ls s)).
    destruct (ls_prefixID _ _) as [pid| |]; cbn [bind]; auto. destruct (checkPrefix _ _ _ _) as [[pl []]| |]; cbn [bind negb]; auto.
    destruct (Nat.leb _ _); auto. destruct (idx q _) as [kb| |]; cbn [bind]; auto.
    destruct (ls_nodeSize _ _) as [sz| |]; cbn [bind]; auto. destruct (label_search _ _ _ _) as [[p []]| |]; cbn [bind negb]; auto.
    destruct (rv_isSet _ _) as [[]| |]; cbn [bind negb]; auto.
    destruct (ls_childNodeID _ _) as [x| |]; cbn [bind]; auto. destruct (ls_firstLabelPos _ _) as [y| |]; cbn [bind]; auto. }
  unfold surf_find. cbn [ups s_ld s_ls]. change (ld_height (upld val vs (s_ld s))) with (ld_height (s_ld s)). rewrite D.
  destruct (ld_find_loop _ _ _ _ _ _) as [[p|n d]| |]; cbn [bind]; auto.
  change (ls_firstLabelPos (upls val vs (s_ls s))) with (ls_firstLabelPos (s_ls s)). destruct (ls_firstLabelPos _ _) as [y| |]; cbn [bind]; auto. now rewrite P.
Qed.
