(** * SurfLevel: the level of a trie node is the number of branchings above it. *)
From Verif Require Import Base BitsModel BitsFacts VecModel VecProofs VecProofs2 SurfModel SurfTrie SurfSuffix SurfBuild SurfDense SurfEnc SurfBuildTop SurfGet SurfGet2 SurfSpec SurfWalk SurfTop SurfGetSpec SurfExact SurfAll.
Ltac Zify.zify_post_hook ::= Z.div_mod_to_equations.

Lemma level_from kvs NSS q : linked NSS -> nth_error NSS 0 = Some [mknode kvs 0] -> Forall (ninv kvs) (concat NSS) ->
  forall l L n, nth_error NSS l = Some L -> In n L -> is_prefix (npath n) q -> levels_from (map fst kvs) q 0 = l + levels_from (map fst kvs) q (tn_pd n).
Proof.
  intros LK RT NI. assert (NI' : forall l L n, nth_error NSS l = Some L -> In n L -> ninv kvs n).
  { intros l L n E I. rewrite Forall_forall in NI. apply NI, in_concat. exists L. split; auto. eapply nth_error_In; eauto. }
  induction l as [|l IH]; intros L n E I P.
  - rewrite RT in E. injection E as <-. destruct I as [<-|[]]. reflexivity.
  - destruct (nth_error NSS l) as [L0|] eqn:E0; [|apply nth_error_None in E0; assert (nth_error NSS (S l) = None) by (apply nth_error_None; lia); congruence].
    pose proof (linked_level NSS LK l L0 E0) as LV. rewrite E in LV. subst L. apply in_flat_map in I as (m & Im & I).
    unfold children in I. apply in_map_iff in I as (it & <- & I). apply filter_In in I as [I HC]. pose proof (NI' _ _ _ E0 Im) as Nm. pose proof (ni_wf _ _ Nm) as Wm.
    rewrite (child_npath m it Wm I HC) in P. rewrite (child_pd m it) by auto.
    rewrite (IH L0 m eq_refl Im); [|eapply is_prefix_trans; [apply npath_ndpath; exact Wm|]; eapply is_prefix_trans; [|exact P]; eexists; reflexivity].
    rewrite (levels_child kvs m it q Nm I HC P). lia.
Qed.

Lemma node_level kvs NSS : linked NSS -> nth_error NSS 0 = Some [mknode kvs 0] -> Forall (ninv kvs) (concat NSS) ->
  forall l L n, nth_error NSS l = Some L -> In n L -> levels_above (map fst kvs) (ndpath n) = l.
Proof.
  intros LK RT NI l L n E I. assert (Nn : ninv kvs n). { rewrite Forall_forall in NI. apply NI, in_concat. exists L. split; auto. eapply nth_error_In; eauto. }
  pose proof (ni_wf _ _ Nn) as W. pose proof (w_pd _ W) as PD.
  assert (X : levels_above (map fst kvs) (ndpath n) = levels_from (map fst kvs) (ndpath n) 0) by (unfold levels_from, levels_above; now rewrite Nat.sub_0_r).
  rewrite X, (level_from kvs NSS _ LK RT NI l L n E I (npath_ndpath n W)). unfold levels_from. rewrite filter_none; [cbn; lia|].
  intros j Hj. apply in_seq in Hj. rewrite (ndpath_length n W) in Hj. apply (node_nosplit kvs n); auto.
  - apply (is_prefix_comparable _ _ (ndpath n)); auto; [now apply npath_ndpath|apply is_prefix_firstn|]. rewrite npath_length, firstn_length, ndpath_length by auto. lia.
  - apply is_prefix_firstn.
  - rewrite firstn_length, ndpath_length by auto. lia.
Qed.

Lemma skipn_level kvs NSS h : linked NSS -> nth_error NSS 0 = Some [mknode kvs 0] -> Forall (ninv kvs) (concat NSS) ->
  forall n, In n (concat (skipn h NSS)) -> h <= levels_above (map fst kvs) (ndpath n).
Proof.
  intros LK RT NI n I. apply in_concat in I as (L & IL & In'). apply In_nth_error in IL as (i & E). rewrite skipn_nth_error in E.
  rewrite (node_level kvs NSS LK RT NI _ _ _ E In'). lia.
Qed.
