(** * Get on a built filter: stored keys are found, hits are backed by a stored key. *)
From Coq Require Import Sorted.
From Verif Require Import Base BitsModel BitsFacts VecModel VecProofs VecProofs2 SurfModel SurfTrie SurfSuffix SurfBuild SurfDense SurfEnc SurfBuildTop SurfGet SurfGet2 SurfSpec SurfWalk.

Section Lookup.
Variable fp : bytes -> N.
Variable c : config.

Lemma smatch_self key level : smatch fp c (sfx fp (c_type c) (c_hashLen c) (c_realLen c) key level) key level = true.
Proof.
  unfold smatch. destruct (c_type c) eqn:T; try apply N.eqb_refl; auto.
  rewrite N.eqb_refl, andb_true_r. destruct (Nat.ltb (length key) level || Nat.ltb ((length key - level) * 8) (c_realLen c)) eqn:S; cbn [negb]; [|apply orb_true_r].
  rewrite orb_false_r. unfold sfx. cbn [constructSuffix]. unfold constructRealSuffix. now rewrite S.
Qed.

Lemma leafres_self n it e : In it (items n) -> i_grp it = [e] -> leafres fp c it (fst e) (tn_d n + 1) = Some (firstn (c_valueSize c) (snd e)).
Proof.
  intros H G. unfold leafres, sufv, ivalue, i_kv. rewrite (item_depth n it H), G. cbn [hd]. now rewrite smatch_self.
Qed.

Lemma items_nonempty n : nwf n -> exists it r, items n = it :: r.
Proof. intros W. pose proof (items_pos n W). destruct (items n) as [|it r]; [cbn in H; lia|eauto]. Qed.

(** A key ending at the branching position of its node is the node's terminator. *)
Lemma ends_term n e : nwf n -> In e (tn_kvs n) -> length (fst e) <= tn_d n ->
  exists it r, items n = it :: r /\ i_term it = true /\ i_grp it = [e].
Proof.
  intros W H L. destruct (item_of n e H) as (it & Hit & He). destruct (i_term it) eqn:T.
  - destruct (item_term n it W Hit T) as (e0 & r & K & G & E0 & _). rewrite G in He. destruct He as [<-|[]].
    destruct (items_nonempty n W) as (i0 & r0 & EI). pose proof (tail_noterm n i0 r0 EI) as TT. rewrite Forall_forall in TT.
    rewrite EI in Hit. destruct Hit as [->|Hit]; [eauto|]. rewrite (TT it Hit) in T. discriminate.
  - destruct (item_noterm n it e W Hit T He) as (_ & L' & _). lia.
Qed.

Lemma hasc_single it e : i_grp it = [e] -> hasc it = false.
Proof. intros G. unfold hasc. now rewrite G. Qed.

Lemma term_label n it : nwf n -> In it (items n) -> i_term it = true -> i_label it = labelTerminator.
Proof. intros W H T. now destruct (item_term n it W H T) as (? & ? & _ & _ & _ & _ & L). Qed.

Lemma prefix_check n q : nwf n -> is_prefix (npath n) q ->
  (is_prefixb (nprefix n) (skipn (tn_pd n) q) = true <-> is_prefix (ndpath n) q).
Proof.
  intros W P. rewrite is_prefixb_iff. rewrite <- (npath_length n W). rewrite <- (nprefix_path n W). split.
  - now apply is_prefix_skipn.
  - intros (x & ->). exists x. rewrite <- app_assoc, skipn_app, skipn_all, Nat.sub_diag. reflexivity.
Qed.

Lemma alook_stored n e it : nwf n -> In it (items n) -> i_term it = false -> In e (i_grp it) -> alook n (fst e) = Some it.
Proof.
  intros W H T He. destruct (item_noterm n it e W H T He) as (_ & _ & B).
  destruct (alook n (fst e)) as [it'|] eqn:AL.
  - f_equal. symmetry. apply (alook_unique n (fst e) it' it W AL H); auto. unfold noterm. now rewrite T.
  - exfalso. pose proof (find_none _ _ AL it H) as X. cbn beta in X. unfold noterm in X. rewrite T, B, Nat.eqb_refl in X. discriminate.
Qed.

Theorem aget_stored f : forall dl n e, nwf n -> In e (tn_kvs n) -> length (fst e) < f + tn_pd n ->
  aget fp c f dl n (fst e) = Some (firstn (c_valueSize c) (snd e)).
Proof.
  induction f as [|f IH]; intros dl n e W H L.
  { pose proof (share_length _ _ e (w_share n W) H). pose proof (w_pd n W). lia. }
  pose proof (share_length _ _ e (w_share n W) H) as LD. pose proof (w_pd n W) as PD.
  pose proof (proj2 (prefix_check n (fst e) W (npath_prefix n e W H)) (ndpath_prefix n e W H)) as PX.
  assert (LK : forall dl', match alook n (fst e) with None => None
     | Some it => if hasc it then aget fp c f dl' (mkchild it) (fst e) else leafres fp c it (fst e) (tn_d n + 1) end = Some (firstn (c_valueSize c) (snd e)) \/ length (fst e) <= tn_d n).
  { intros dl'. destruct (item_of n e H) as (it & Hit & He). destruct (i_term it) eqn:T.
    - right. destruct (item_term n it W Hit T) as (e0 & r & K & G & E0 & _). rewrite G in He. destruct He as [<-|[]]. rewrite E0, ndpath_length; auto.
    - left. rewrite (alook_stored n e it W Hit T He). destruct (hasc it) eqn:Hc.
      + apply IH; [now apply (child_wf n)|exact He|]. rewrite (child_pd n it Hit). lia.
      + destruct (item_leaf n it Hit Hc) as (e' & G). rewrite G in He. destruct He as [<-|[]]. apply leafres_self; auto. }
  assert (EN : length (fst e) <= tn_d n -> aend_dense fp c n (fst e) = Some (firstn (c_valueSize c) (snd e)) /\ aend_sparse fp c n (fst e) (tn_d n) = Some (firstn (c_valueSize c) (snd e))).
  { intros Le. destruct (ends_term n e W H Le) as (it & r & EI & T & G).
    assert (Hit : In it (items n)) by (rewrite EI; left; auto). split.
    - unfold aend_dense. rewrite EI. cbn [find]. rewrite T. now apply leafres_self.
    - unfold aend_sparse. rewrite EI. rewrite (term_label n it W Hit T), Nat.eqb_refl, (hasc_single it e G). cbn [andb negb]. now apply leafres_self. }
  cbn [aget]. rewrite PX. destruct dl as [|dl'].
  - destruct (Nat.leb_spec (length (fst e)) (tn_pd n)) as [Lp|Lp].
    + assert (ED : tn_pd n = tn_d n) by lia. rewrite ED. apply EN. lia.
    + destruct (Nat.leb_spec (length (fst e)) (tn_d n)); [now apply EN|]. destruct (LK 0); [auto|lia].
  - destruct (Nat.leb_spec (length (fst e)) (tn_d n)); [now apply EN|]. destruct (LK dl'); [auto|lia].
Qed.

(** *** Hits *)
Definition two_or_top (n : tnode) : Prop := 2 <= length (tn_kvs n) \/ tn_d n = 0.

Lemma child_two it : hasc it = true -> two_or_top (mkchild it).
Proof. intros H. left. change (tn_kvs (mkchild it)) with (i_grp it). unfold hasc in H. apply Nat.ltb_lt in H. lia. Qed.

Lemma root_two kvs : nwf (mknode kvs 0) -> two_or_top (mknode kvs 0).
Proof.
  intros W. unfold two_or_top, mknode. cbn [tn_kvs tn_d]. destruct kvs as [|e [|e' r]]; cbn [length]; [|right|left; lia].
  - pose proof (w_ne _ W). cbn in H. congruence.
  - cbn [branch]. unfold oneway. cbn [length Nat.eqb negb andb]. rewrite andb_false_r. reflexivity.
Qed.

Lemma leafres_some it q level v : leafres fp c it q level = Some v -> v = ivalue c it.
Proof. unfold leafres. destruct (smatch _ _ _ _ _); congruence. Qed.

(** A single-item node holds a single key. *)
Lemma one_item n it e : items n = [it] -> i_grp it = [e] -> tn_kvs n = [e].
Proof. intros E G. rewrite <- (items_kvs (tn_d n) (tn_kvs n)). fold (items n). rewrite E. cbn. now rewrite G. Qed.

Lemma aend_sparse_hit kvs n q depth v : increasing (map fst kvs) -> ninv kvs n -> two_or_top n -> is_prefix (npath n) q -> is_prefix q (ndpath n) ->
  aend_sparse fp c n q depth = Some v -> exists e, In e kvs /\ v = firstn (c_valueSize c) (snd e) /\ backed (map fst kvs) (fst e) q.
Proof.
  intros HI NI TW P1 P2 H. pose proof (ni_wf _ _ NI) as W. unfold aend_sparse in H. destruct (items_nonempty n W) as (it & r & EI). rewrite EI in H.
  destruct (Nat.eqb_spec (i_label it) labelTerminator) as [L|]; [|discriminate]. cbn [andb] in H. destruct (hasc it) eqn:Hc; [discriminate|]. cbn [negb] in H.
  apply leafres_some in H. assert (Hit : In it (items n)) by (rewrite EI; left; auto). destruct (item_leaf n it Hit Hc) as (e & G).
  assert (He : In e (tn_kvs n)) by (eapply item_grp_incl; eauto; rewrite G; left; auto).
  exists e. split; [now apply (ni_incl _ _ NI)|]. split; [unfold ivalue, i_kv in H; rewrite G in H; exact H|].
  right. assert (AL : forall k, In k (map fst kvs) -> is_prefix q k -> exists e', In e' (tn_kvs n) /\ fst e' = k).
  { intros k Hk PK. apply in_map_iff in Hk as (e' & <- & He'). exists e'. split; auto. apply (ni_all _ _ NI); auto. eapply is_prefix_trans; eauto. }
  split; [eapply is_prefix_trans; [exact P2|now apply ndpath_prefix]|].
  intros k Hk PK. destruct (AL k Hk PK) as (e' & He' & <-). destruct (i_term it) eqn:T.
  - destruct (item_term n it W Hit T) as (e0 & r0 & K & G' & E0 & _). rewrite G in G'. inversion G'; subst e0. rewrite E0. now apply ndpath_prefix.
  - destruct r as [|x r].
    + rewrite (one_item n it e EI G) in He'. destruct He' as [<-|[]]. apply is_prefix_refl.
    + exfalso. pose proof (first_label_term n it (x :: r) W EI ltac:(discriminate)) as X. rewrite L, Nat.eqb_refl, T in X. discriminate.
Qed.

Theorem aget_backed kvs q f : increasing (map fst kvs) -> forall dl n v, ninv kvs n -> two_or_top n -> is_prefix (npath n) q ->
  aget fp c f dl n q = Some v -> exists e, In e kvs /\ v = firstn (c_valueSize c) (snd e) /\ backed (map fst kvs) (fst e) q.
Proof.
  intros HI. induction f as [|f IH]; intros dl n v NI TW P H; [discriminate|]. pose proof (ni_wf _ _ NI) as W.
  assert (LK : forall dl', tn_d n < length q -> is_prefix (ndpath n) q -> match alook n q with None => None
     | Some it => if hasc it then aget fp c f dl' (mkchild it) q else leafres fp c it q (tn_d n + 1) end = Some v ->
     exists e, In e kvs /\ v = firstn (c_valueSize c) (snd e) /\ backed (map fst kvs) (fst e) q).
  { intros dl' L PD E. destruct (alook n q) as [it|] eqn:AL; [|discriminate]. destruct (alook_split n q it AL) as (A & B & EI & T & LB).
    assert (Hit : In it (items n)) by (rewrite EI; apply in_or_app; right; left; auto).
    assert (PI : is_prefix (ndpath n ++ [i_label it]) q).
    { rewrite LB. pose proof PD as PD'. apply is_prefix_firstn_iff in PD'. rewrite ndpath_length in PD' by auto. rewrite <- PD' at 1. rewrite <- firstn_S_nth by auto. apply is_prefix_firstn. }
    destruct (hasc it) eqn:Hc.
    - eapply IH; [eapply child_ninv; eauto|now apply child_two| |exact E]. rewrite (child_npath n it W Hit Hc). exact PI.
    - destruct (item_leaf n it Hit Hc) as (e & G). assert (He : In e (tn_kvs n)) by (eapply item_grp_incl; eauto; rewrite G; left; auto).
      apply leafres_some in E. exists e. split; [now apply (ni_incl _ _ NI)|]. split; [unfold ivalue, i_kv in E; rewrite G in E; exact E|].
      left. rewrite (leaf_dprefix kvs n it e HI NI TW Hit G). unfold ikey. rewrite T. exact PI. }
  assert (QE : length q <= tn_d n -> is_prefix (ndpath n) q -> q = ndpath n).
  { intros L PD. symmetry. apply is_prefix_eq; auto. rewrite ndpath_length; auto. }
  cbn [aget] in H. destruct dl as [|dl'].
  - destruct (Nat.leb_spec (length q) (tn_pd n)) as [Lp|Lp].
    { assert (q = npath n) by (symmetry; apply is_prefix_eq; auto; rewrite npath_length; auto). subst q.
      eapply aend_sparse_hit; eauto. now apply npath_ndpath. }
    destruct (is_prefixb (nprefix n) (skipn (tn_pd n) q)) eqn:PX; [|discriminate]. apply prefix_check in PX; auto.
    destruct (Nat.leb_spec (length q) (tn_d n)) as [Ld|Ld]; [|now apply (LK 0)].
    eapply aend_sparse_hit; eauto. rewrite (QE Ld PX). apply is_prefix_refl.
  - destruct (is_prefixb (nprefix n) (skipn (tn_pd n) q)) eqn:PX; [|discriminate]. apply prefix_check in PX; auto.
    destruct (Nat.leb_spec (length q) (tn_d n)) as [Ld|Ld]; [|now apply (LK dl')].
    unfold aend_dense in H. destruct (find i_term (items n)) as [it|] eqn:F; [|discriminate]. apply find_some in F as [Hit T].
    destruct (item_term n it W Hit T) as (e & r & K & G & E0 & _). apply leafres_some in H.
    assert (He : In e (tn_kvs n)) by (rewrite K; left; auto). exists e. split; [now apply (ni_incl _ _ NI)|]. split; [unfold ivalue, i_kv in H; rewrite G in H; exact H|].
    left. rewrite (leaf_dprefix kvs n it e HI NI TW Hit G). unfold ikey. now rewrite T.
Qed.

(** *** The dense/sparse split *)
Theorem aget_split kvs q f : ~ proper_prefix_of_some (map fst kvs) q -> forall dl1 dl2 n, ninv kvs n -> is_prefix (npath n) q ->
  aget fp c f dl1 n q = aget fp c f dl2 n q.
Proof.
  intros HN. induction f as [|f IH]; intros dl1 dl2 n NI P; [reflexivity|]. pose proof (ni_wf _ _ NI) as W. pose proof (w_pd n W) as WP.
  assert (NQ : is_prefix q (ndpath n) -> False).
  { intros PQ. destruct (key0_in n W) as (e & He & _).
    assert (EQ : forall e, In e (tn_kvs n) -> fst e = q).
    { intros e' He'. destruct (list_eq_dec Nat.eq_dec (fst e') q) as [|NE]; auto. exfalso. apply HN. exists (fst e'). split; [apply in_map; now apply (ni_incl _ _ NI)|].
      split; auto. eapply is_prefix_trans; [exact PQ|now apply ndpath_prefix]. }
    destruct (Nat.lt_ge_cases (length (tn_kvs n)) 2) as [L|L].
    - pose proof (w_ne n W) as NE. pose proof (w_one n W) as O. destruct (tn_kvs n) as [|a [|b r]] eqn:K; cbn [length] in *; try congruence; try lia.
      specialize (O eq_refl). cbn [is_term] in O. apply Nat.leb_gt in O. specialize (EQ a (or_introl eq_refl)). rewrite EQ in O.
      pose proof (is_prefix_length _ _ PQ) as LQ. rewrite ndpath_length in LQ by auto. lia.
    - destruct (other_key n e W L He) as (e' & He' & NE). rewrite (EQ e He), (EQ e' He') in NE. congruence. }
  assert (Lp : tn_pd n < length q).
  { destruct (Nat.lt_ge_cases (tn_pd n) (length q)); auto. exfalso. apply NQ. replace q with (npath n); [now apply npath_ndpath|]. apply is_prefix_eq; auto. rewrite npath_length; auto. }
  assert (LK : forall dl dl', is_prefix (ndpath n) q -> tn_d n < length q -> match alook n q with None => None
     | Some it => if hasc it then aget fp c f dl (mkchild it) q else leafres fp c it q (tn_d n + 1) end = match alook n q with None => None
     | Some it => if hasc it then aget fp c f dl' (mkchild it) q else leafres fp c it q (tn_d n + 1) end).
  { intros dl dl' PD L. destruct (alook n q) as [it|] eqn:AL; auto. destruct (hasc it) eqn:Hc; auto. destruct (alook_split n q it AL) as (A & B & EI & T & LB).
    assert (Hit : In it (items n)) by (rewrite EI; apply in_or_app; right; left; auto).
    apply IH; [eapply child_ninv; eauto|]. rewrite (child_npath n it W Hit Hc). rewrite LB. apply is_prefix_firstn_iff in PD. rewrite ndpath_length in PD by auto.
    rewrite <- PD at 1. rewrite <- firstn_S_nth by auto. apply is_prefix_firstn. }
  assert (U : forall dl, aget fp c (S f) dl n q = if is_prefixb (nprefix n) (skipn (tn_pd n) q) then match alook n q with None => None
     | Some it => if hasc it then aget fp c f (pred dl) (mkchild it) q else leafres fp c it q (tn_d n + 1) end else None).
  { intros dl. cbn [aget]. destruct (is_prefixb (nprefix n) (skipn (tn_pd n) q)) eqn:PX.
    - apply prefix_check in PX; auto. assert (Ld : tn_d n < length q).
      { destruct (Nat.lt_ge_cases (tn_d n) (length q)); auto. exfalso. apply NQ. replace q with (ndpath n); [apply is_prefix_refl|]. apply is_prefix_eq; auto. rewrite ndpath_length; auto. }
      destruct (Nat.leb_spec (length q) (tn_pd n)); [lia|]. destruct (Nat.leb_spec (length q) (tn_d n)); [lia|]. now destruct dl.
    - destruct (Nat.leb_spec (length q) (tn_pd n)); [lia|]. now destruct dl. }
  rewrite !U. destruct (is_prefixb (nprefix n) (skipn (tn_pd n) q)) eqn:PX; auto. apply prefix_check in PX; auto. apply LK; auto.
  destruct (Nat.lt_ge_cases (tn_d n) (length q)); auto. exfalso. apply NQ. replace q with (ndpath n); [apply is_prefix_refl|]. apply is_prefix_eq; auto. rewrite ndpath_length; auto.
Qed.
End Lookup.

(* ------------------------------------------------------------------ *)
(** ** Built filters *)

(** [s] is what [Build] on a fresh builder returned. *)
Definition built (fp : bytes -> N) (vs h r : nat) (keys vals : list bytes) (hint : Z) (s : surf) : Prop :=
  exists fuel b', Forall (fun k => length k < fuel) keys /\ surf_build fp fuel (newBuilder vs h r) keys vals hint = Ok (s, b').

Lemma built_rep fp vs h r keys vals hint s : valid_input vs h r keys vals -> built fp vs h r keys vals hint s ->
  let kvs := combine keys vals in let c := mkcfg vs h r in
  exists cut, surf_rep fp c (trie kvs) cut s /\ nwf (mknode kvs 0) /\ cfg_ok c /\ Forall (leaf_ok c) (leaves (concat (trie kvs))) /\ map fst kvs = keys /\
    nth_error (trie kvs) 0 = Some [mknode kvs 0].
Proof.
  intros V (fuel & b' & HF & E) kvs c. destruct (surf_build_spec fp vs h r keys vals hint fuel V HF) as (s' & b2 & cut & E' & R).
  rewrite E' in E. apply Ok_eq in E. inversion E; subst s' b2. exists cut. split; [exact R|].
  assert (MF : map fst kvs = keys) by (apply map_fst_combine; apply V).
  assert (KNE : kvs <> []) by (intros X; rewrite X in MF; cbn in MF; symmetry in MF; now apply (v_ne _ _ _ _ _ V)).
  assert (KB : Forall (fun e : kv => wf_bytes (fst e) = true) kvs).
  { pose proof (v_byte _ _ _ _ _ V) as B. rewrite <- MF, Forall_map in B. exact B. }
  assert (RW : nwf (mknode kvs 0)) by (apply root_wf; auto; rewrite MF; apply V).
  split; auto. split. { split; [reflexivity|]. cbn [c mkcfg]. apply V. }
  split; [|split; auto; now apply trie_head].
  apply Forall_forall. intros it Hit. unfold leaves in Hit. apply filter_In in Hit as [Hit Hl]. apply in_flat_map in Hit as (n & Hn & Hit).
  pose proof (trie_ninv kvs RW) as TN. rewrite Forall_forall in TN. specialize (TN n Hn).
  unfold leafb in Hl. destruct (hasc it) eqn:Hc; [discriminate|]. destruct (item_leaf n it Hit Hc) as (e & G).
  assert (He : In e kvs). { apply (ni_incl _ _ TN). eapply item_grp_incl; eauto. rewrite G. left. auto. }
  unfold leaf_ok, ivalue, i_kv. rewrite G. cbn [hd]. rewrite Forall_forall in KB. split; [now apply KB|].
  pose proof (v_size _ _ _ _ _ V) as S. rewrite <- map_snd_combine, Forall_map, Forall_forall in S. specialize (S e He). cbn beta in S.
  rewrite firstn_length. cbn [c mkcfg c_valueSize b_config newBuilder b_valueSize]. lia.
Qed.

Lemma get_aget fp vs h r keys vals hint s q : valid_input vs h r keys vals -> built fp vs h r keys vals hint s -> wf_bytes q = true ->
  exists cut, surf_get fp s q = Ok (aget fp (mkcfg vs h r) (S (length q)) cut (mknode (combine keys vals) 0) q).
Proof.
  intros V B Hq. destruct (built_rep fp vs h r keys vals hint s V B) as (cut & R & RW & CO & LO & MF & TH). exists cut.
  eapply surf_get_spec; eauto.
Qed.

Theorem get_total fp vs h r keys vals hint s q : valid_input vs h r keys vals -> built fp vs h r keys vals hint s -> wf_bytes q = true ->
  exists a, surf_get fp s q = Ok a.
Proof. intros V B Hq. destruct (get_aget _ _ _ _ _ _ _ _ q V B Hq) as (cut & E). eauto. Qed.

Lemma combine_nth_In {A B} (l : list A) : forall (l' : list B) i a b, nth_error l i = Some a -> nth_error l' i = Some b -> In (a, b) (combine l l').
Proof.
  induction l as [|x l IH]; intros l' i a b H H'; [destruct i; discriminate|]. destruct l' as [|y l']; [destruct i; discriminate|].
  destruct i; cbn in *; [inversion H; inversion H'; subst; now left|right; eauto].
Qed.

Theorem get_stored fp vs h r keys vals hint s i k v : valid_input vs h r keys vals -> built fp vs h r keys vals hint s ->
  nth_error keys i = Some k -> nth_error vals i = Some v -> surf_get fp s k = Ok (Some (firstn vs v)).
Proof.
  intros V B Hk Hv. assert (Hw : wf_bytes k = true).
  { pose proof (v_byte _ _ _ _ _ V) as F. rewrite Forall_forall in F. apply F. eapply nth_error_In; eauto. }
  destruct (get_aget _ _ _ _ _ _ _ _ k V B Hw) as (cut & ->). f_equal.
  destruct (built_rep fp vs h r keys vals hint s V B) as (cut' & R & RW & CO & LO & MF & TH).
  pose proof (combine_nth_In keys vals i k v Hk Hv) as I.
  apply (aget_stored fp (mkcfg vs h r) (S (length k)) cut (mknode (combine keys vals) 0) (k, v)); auto. cbn. lia.
Qed.

Lemma in_combine_nth {A B} (l : list A) : forall (l' : list B) p, In p (combine l l') -> exists i, nth_error l i = Some (fst p) /\ nth_error l' i = Some (snd p).
Proof.
  induction l as [|x l IH]; intros l' p H; [destruct H|]. destruct l' as [|y l']; [destruct H|]. cbn in H. destruct H as [<-|H]; [exists 0; auto|].
  destruct (IH l' p H) as (i & H1 & H2). exists (S i). auto.
Qed.

Theorem get_backed fp vs h r keys vals hint s q v : valid_input vs h r keys vals -> built fp vs h r keys vals hint s -> wf_bytes q = true ->
  surf_get fp s q = Ok (Some v) ->
  exists i k w, nth_error keys i = Some k /\ nth_error vals i = Some w /\ v = firstn vs w /\ backed keys k q.
Proof.
  intros V B Hq H. destruct (get_aget _ _ _ _ _ _ _ _ q V B Hq) as (cut & E). rewrite E in H. apply Ok_eq in H.
  destruct (built_rep fp vs h r keys vals hint s V B) as (cut' & R & RW & CO & LO & MF & TH).
  destruct (aget_backed fp (mkcfg vs h r) (combine keys vals) q (S (length q))) with (dl := cut) (n := mknode (combine keys vals) 0) (v := v) as (e & He & Ev & Bk); auto.
  - rewrite MF. apply V.
  - now apply root_ninv.
  - now apply root_two.
  - exists q. reflexivity.
  - rewrite MF in Bk. destruct (in_combine_nth _ _ _ He) as (i & H1 & H2). exists i, (fst e), (snd e). auto.
Qed.

Theorem get_split fp vs h r keys vals hint1 hint2 s1 s2 q : valid_input vs h r keys vals ->
  built fp vs h r keys vals hint1 s1 -> built fp vs h r keys vals hint2 s2 -> wf_bytes q = true ->
  ~ proper_prefix_of_some keys q -> surf_get fp s1 q = surf_get fp s2 q.
Proof.
  intros V B1 B2 Hq HN. destruct (get_aget _ _ _ _ _ _ _ _ q V B1 Hq) as (c1 & ->). destruct (get_aget _ _ _ _ _ _ _ _ q V B2 Hq) as (c2 & ->). f_equal.
  destruct (built_rep fp vs h r keys vals hint1 s1 V B1) as (cut' & R & RW & CO & LO & MF & TH).
  apply (aget_split fp (mkcfg vs h r) (combine keys vals) q (S (length q))).
  - now rewrite MF.
  - now apply root_ninv.
  - exists q. reflexivity.
Qed.

Theorem build_total fp vs h r keys vals hint : valid_input vs h r keys vals -> exists s, built fp vs h r keys vals hint s.
Proof.
  intros V. set (fuel := S (list_max (map (@length nat) keys))).
  assert (HF : Forall (fun k => length k < fuel) keys).
  { apply Forall_forall. intros k Hk. unfold fuel. pose proof (list_max_le (map (@length nat) keys) (list_max (map (@length nat) keys))) as [H _].
    specialize (H (le_n _)). rewrite Forall_forall in H. specialize (H (length k) (in_map _ _ _ Hk)). lia. }
  destruct (surf_build_spec fp vs h r keys vals hint fuel V HF) as (s & b' & cut & E & _). exists s, fuel, b'. auto.
Qed.
