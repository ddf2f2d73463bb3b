(** * SurfIterLevel: the level and the start of the sparse part for a stored key. *)
From Verif Require Import Base BitsModel BitsFacts VecModel VecProofs VecProofs2 SurfModel SurfTrie SurfSuffix SurfBuild SurfDense SurfEnc SurfBuildTop SurfGet SurfGet2 SurfSpec SurfWalk SurfTop SurfSuffix3 SurfGetSpec SurfExact SurfAll SurfIter SurfIterSpec SurfLevel SurfVerdict.
Ltac Zify.zify_post_hook ::= Z.div_mod_to_equations.

Lemma levels_snoc keys a x : levels_above keys (a ++ [x]) = levels_above keys a + (if splitb keys a then 1 else 0).
Proof.
  unfold levels_above. rewrite app_length. cbn [length]. rewrite Nat.add_1_r, seq_S, filter_app, app_length. cbn [Nat.add filter].
  rewrite firstn_app, firstn_all, Nat.sub_diag. cbn [firstn]. rewrite app_nil_r. f_equal; [|destruct (splitb keys a); reflexivity].
  f_equal. apply filter_ext_in. intros j Hj. apply in_seq in Hj. rewrite firstn_app. replace (j - length a) with 0 by lia. cbn [firstn]. now rewrite app_nil_r.
Qed.
Lemma levels_mono keys z : forall a, levels_above keys a <= levels_above keys (a ++ z).
Proof.
  induction z as [|x z IH]; intros a; [now rewrite app_nil_r|]. change (x :: z) with ([x] ++ z). rewrite app_assoc. etransitivity; [|apply IH]. rewrite levels_snoc. lia.
Qed.
Lemma levels_prefix keys a b : is_prefix a b -> levels_above keys a <= levels_above keys b.
Proof. intros (z & ->). apply levels_mono. Qed.

Section Level.
Variables (NSS : list (list tnode)) (kvs : list kv).
Hypothesis LK : linked NSS.
Hypothesis RT : nth_error NSS 0 = Some [mknode kvs 0].
Hypothesis INC : increasing (map fst kvs).
Hypothesis NI : Forall (ninv kvs) (concat NSS).
Notation keys := (map fst kvs).

Lemma item_continued n x e : ninv kvs n -> In x (items n) -> i_grp x = [e] -> continuedb keys (fst e) = i_term x.
Proof.
  intros N Ix G. destruct (i_term x) eqn:T.
  - pose proof N as [W IN _]. destruct (item_term n x W Ix T) as (e0 & r & EK & G' & FE & NE & _). rewrite G in G'. assert (e0 = e) by congruence. subst e0.
    destruct r as [|y r]; [congruence|]. pose proof (w_inc n W) as WI. rewrite EK in WI. cbn [map increasing] in WI. destruct WI as [WI _].
    assert (Hy : In y (tn_kvs n)) by (rewrite EK; right; now left).
    apply continuedb_iff. exists (fst y). split; [apply in_map; now apply IN|]. split; [rewrite FE; now apply ndpath_prefix|]. intros E. rewrite E in WI. now apply blt_irrefl in WI.
  - apply continuedb_false. eapply leaf_alone; eauto.
Qed.

Lemma leaf_level_node l L n x e : nth_error NSS l = Some L -> In n L -> two_or_top n -> In x (items n) -> i_grp x = [e] -> leaf_level keys (fst e) = l.
Proof.
  intros E I TT Ix G. assert (N : ninv kvs n). { rewrite Forall_forall in NI. apply NI, in_concat. exists L. split; auto. eapply nth_error_In; eauto. }
  unfold leaf_level. rewrite (item_continued n x e N Ix G), (leaf_dprefix kvs n x e INC N TT Ix G). pose proof (node_level kvs NSS LK RT NI l L n E I) as NL. unfold ikey.
  destruct (i_term x); [lia|]. rewrite levels_snoc, NL. destruct TT as [T2|D0].
  - rewrite (node_split kvs n N T2). lia.
  - assert (ndpath n = []) as E0 by (apply length_zero_iff_nil; rewrite (ndpath_length n (ni_wf _ _ N)); exact D0). rewrite E0 in *. change (levels_above keys []) with 0 in NL. destruct (splitb keys []); lia.
Qed.

Lemma npath_level l L n : nth_error NSS l = Some L -> In n L -> levels_above keys (npath n) = l.
Proof.
  intros E I. assert (N : ninv kvs n). { rewrite Forall_forall in NI. apply NI, in_concat. exists L. split; auto. eapply nth_error_In; eauto. }
  assert (X : levels_above keys (npath n) = levels_from keys (npath n) 0) by (unfold levels_from, levels_above; now rewrite Nat.sub_0_r).
  rewrite X, (level_from kvs NSS _ LK RT NI l L n E I (is_prefix_refl _)). unfold levels_from. rewrite (npath_length n (ni_wf _ _ N)), Nat.sub_diag. cbn. lia.
Qed.

Lemma hd_filter f : forall m a j, (forall i, a <= i < j -> f i = false) -> a <= j < a + m -> f j = true -> hd 0 (filter f (seq a m)) = j.
Proof.
  induction m as [|m IH]; intros a j H R T; [lia|]. cbn [seq filter]. destruct (Nat.eq_dec a j) as [->|NE].
  - now rewrite T.
  - rewrite (H a) by lia. apply IH; auto; try lia. intros i Hi. apply H. lia.
Qed.

Lemma start_depth_node l L n k : nth_error NSS l = Some L -> In n L -> is_prefix (npath n) k -> start_depth l keys k = length (npath n).
Proof.
  intros E I P. pose proof (npath_level l L n E I) as NL. pose proof (is_prefix_length _ _ P) as PL. pose proof P as PF. apply is_prefix_firstn_iff in PF.
  unfold start_depth. apply hd_filter; [|lia|rewrite PF; now apply Nat.eqb_eq]. intros i Hi. apply Nat.eqb_neq.
  assert (X : levels_above keys (firstn i k) < l); [|lia].
  destruct l as [|l].
  { exfalso. rewrite RT in E. injection E as <-. destruct I as [<-|[]]. cbn in Hi. unfold npath in Hi. cbn [tn_pd mknode firstn length] in Hi. lia. }
  destruct (nth_error NSS l) as [L0|] eqn:E0; [|apply nth_error_None in E0; assert (nth_error NSS (S l) = None) by (apply nth_error_None; lia); congruence].
  pose proof (linked_level NSS LK l L0 E0) as LV. rewrite E in LV. subst L. apply in_flat_map in I as (m & Im & I).
  unfold children in I. apply in_map_iff in I as (it & <- & I). apply filter_In in I as [I HC].
  assert (Nm : ninv kvs m). { rewrite Forall_forall in NI. apply NI, in_concat. exists L0. split; auto. eapply nth_error_In; eauto. } pose proof (ni_wf _ _ Nm) as Wm.
  rewrite (child_npath m it Wm I HC) in P, Hi. rewrite app_length in Hi. cbn [length] in Hi.
  assert (PM : is_prefix (firstn i k) (ndpath m)).
  { apply (is_prefix_comparable _ _ k); [apply is_prefix_firstn| |rewrite firstn_length; lia]. eapply is_prefix_trans; [|exact P]. eexists; reflexivity. }
  apply (levels_prefix keys) in PM. rewrite (node_level kvs NSS LK RT NI l L0 m E0 Im) in PM. lia.
Qed.
End Level.
