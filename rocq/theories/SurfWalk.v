(** * What the trie lookup answers: paths, groups and distinguishing prefixes. *)
From Coq Require Import Sorted.
From Verif Require Import Base BitsModel BitsFacts VecModel VecProofs VecProofs2 SurfModel SurfTrie SurfSuffix SurfBuild SurfDense SurfEnc SurfBuildTop SurfGet SurfGet2 SurfSpec.

(* ------------------------------------------------------------------ *)
(** ** Prefixes *)
Lemma is_prefix_firstn (s : bytes) n : is_prefix (firstn n s) s.
Proof. exists (skipn n s). symmetry. apply firstn_skipn. Qed.

Lemma is_prefix_refl (s : bytes) : is_prefix s s.
Proof. exists []. symmetry. apply app_nil_r. Qed.

Lemma is_prefix_trans a b c : is_prefix a b -> is_prefix b c -> is_prefix a c.
Proof. intros (x & ->) (y & ->). exists (x ++ y). now rewrite app_assoc. Qed.

Lemma is_prefix_length a b : is_prefix a b -> length a <= length b.
Proof. intros (x & ->). rewrite app_length. lia. Qed.

Lemma is_prefix_eq a b : is_prefix a b -> length b <= length a -> a = b.
Proof. intros (x & ->) H. rewrite app_length in H. destruct x; [symmetry; apply app_nil_r|cbn in H; lia]. Qed.

Lemma is_prefix_firstn_iff a b : is_prefix a b <-> firstn (length a) b = a.
Proof.
  split.
  - intros (x & ->). rewrite firstn_app, firstn_all, Nat.sub_diag. cbn. apply app_nil_r.
  - intros H. rewrite <- H. apply is_prefix_firstn.
Qed.

Lemma is_prefix_comparable a b c : is_prefix a c -> is_prefix b c -> length a <= length b -> is_prefix a b.
Proof.
  intros Ha Hb L. apply is_prefix_firstn_iff in Ha. apply is_prefix_firstn_iff in Hb. apply is_prefix_firstn_iff.
  rewrite <- Hb. rewrite firstn_firstn. now replace (Nat.min (length a) (length b)) with (length a) by lia.
Qed.

Lemma is_prefix_ble a b : is_prefix a b -> ble a b.
Proof.
  intros (x & ->). unfold ble. induction a as [|h a IH]; cbn [app bcompare]; [destruct x; discriminate|]. rewrite Nat.compare_refl. exact IH.
Qed.

Lemma firstn_S_nth (s : bytes) d : d < length s -> firstn (S d) s = firstn d s ++ [nth d s 0].
Proof.
  revert d. induction s as [|x s IH]; intros d H; [cbn in H; lia|]. destruct d as [|d]; [reflexivity|].
  cbn [firstn nth app] in *. rewrite <- IH by (cbn in H; lia). reflexivity.
Qed.

Lemma is_prefix_skipn a b c : is_prefix a c -> is_prefix b (skipn (length a) c) -> is_prefix (a ++ b) c.
Proof. intros (x & ->) (y & E). rewrite skipn_app, skipn_all, Nat.sub_diag in E. cbn in E. subst x. exists y. now rewrite app_assoc. Qed.

(* ------------------------------------------------------------------ *)
(** ** Nodes *)
Definition npath (n : tnode) : bytes := firstn (tn_pd n) (key0 (tn_kvs n)).
Definition ndpath (n : tnode) : bytes := firstn (tn_d n) (key0 (tn_kvs n)).

(** [n] holds exactly the keys of [kvs] below its path. *)
Record ninv (kvs : list kv) (n : tnode) : Prop := {
  ni_wf : nwf n;
  ni_incl : incl (tn_kvs n) kvs;
  ni_all : forall e, In e kvs -> is_prefix (npath n) (fst e) -> In e (tn_kvs n)
}.

Lemma key0_in n : nwf n -> exists e, In e (tn_kvs n) /\ fst e = key0 (tn_kvs n).
Proof. intros W. pose proof (w_ne n W). unfold key0. destruct (tn_kvs n) as [|e r]; [congruence|]. exists e. split; [now left|reflexivity]. Qed.

Lemma ndpath_prefix n e : nwf n -> In e (tn_kvs n) -> is_prefix (ndpath n) (fst e).
Proof.
  intros W H. destruct (key0_in n W) as (e0 & H0 & E0). unfold ndpath. rewrite <- E0.
  rewrite (share_firstn _ _ e0 e (w_share n W) H0 H). apply is_prefix_firstn.
Qed.

Lemma ndpath_length n : nwf n -> length (ndpath n) = tn_d n.
Proof.
  intros W. destruct (key0_in n W) as (e0 & H0 & E0). unfold ndpath. rewrite firstn_length, <- E0. pose proof (share_length _ _ e0 (w_share n W) H0). lia.
Qed.

Lemma npath_length n : nwf n -> length (npath n) = tn_pd n.
Proof.
  intros W. destruct (key0_in n W) as (e0 & H0 & E0). unfold npath. rewrite firstn_length, <- E0. pose proof (share_length _ _ e0 (w_share n W) H0).
  pose proof (w_pd n W). lia.
Qed.

Lemma npath_ndpath n : nwf n -> is_prefix (npath n) (ndpath n).
Proof.
  intros W. pose proof (w_pd n W). unfold npath, ndpath. replace (tn_pd n) with (Nat.min (tn_pd n) (tn_d n)) by lia.
  rewrite <- firstn_firstn. apply is_prefix_firstn.
Qed.

Lemma npath_prefix n e : nwf n -> In e (tn_kvs n) -> is_prefix (npath n) (fst e).
Proof. intros W H. eapply is_prefix_trans; [now apply npath_ndpath|now apply ndpath_prefix]. Qed.

Lemma nprefix_path n : nwf n -> npath n ++ nprefix n = ndpath n.
Proof.
  intros W. pose proof (w_pd n W). unfold npath, nprefix, ndpath. 
  rewrite <- (firstn_skipn (tn_pd n) (firstn (tn_d n) (key0 (tn_kvs n)))). rewrite firstn_firstn. replace (Nat.min (tn_pd n) (tn_d n)) with (tn_pd n) by lia.
  f_equal. rewrite skipn_firstn_comm. reflexivity.
Qed.

(** Items partition the keys of the node. *)
Lemma item_of n e : In e (tn_kvs n) -> exists it, In it (items n) /\ In e (i_grp it).
Proof.
  intros H. rewrite <- (items_kvs (tn_d n) (tn_kvs n)) in H. apply in_concat in H as (g & Hg & He). apply in_map_iff in Hg as (it & <- & Hit). exists it. auto.
Qed.

Lemma item_grp_incl n it : In it (items n) -> incl (i_grp it) (tn_kvs n).
Proof.
  intros H e He. rewrite <- (items_kvs (tn_d n) (tn_kvs n)). apply in_concat. exists (i_grp it). split; auto. now apply in_map.
Qed.

Lemma item_term n it : nwf n -> In it (items n) -> i_term it = true ->
  exists e r, tn_kvs n = e :: r /\ i_grp it = [e] /\ fst e = ndpath n /\ r <> [] /\ i_label it = labelTerminator.
Proof.
  intros W H T. unfold items, items_at in H. apply in_app_or in H as [H|H].
  - apply titem_facts in H as (_ & _ & L & IT & e & r & E & G & Le). exists e, r. repeat split; auto.
    + assert (He : In e (tn_kvs n)) by (rewrite E; left; auto). symmetry. apply is_prefix_eq; [now apply ndpath_prefix|]. rewrite ndpath_length by auto. exact Le.
    + intros ->. pose proof (w_one n W) as O. rewrite E in O, IT. rewrite O in IT; [discriminate|reflexivity].
  - apply in_map_iff in H as (p & <- & _). discriminate.
Qed.

Lemma item_noterm n it e : nwf n -> In it (items n) -> i_term it = false -> In e (i_grp it) ->
  In e (tn_kvs n) /\ tn_d n < length (fst e) /\ nth (tn_d n) (fst e) 0 = i_label it.
Proof.
  intros W H T He. destruct (in_groups_items _ _ _ H T) as [G _]. destruct (group_item _ _ _ G) as (_ & G2 & G3 & _). cbn [fst snd] in *.
  pose proof (nonterm_long _ _ (w_inc n W) (w_share n W)) as L. rewrite Forall_forall in L. split; [|split].
  - eapply nonterm_incl. apply G2. exact He.
  - apply L. now apply G2.
  - now apply G3.
Qed.

Lemma item_grp_noterm n it e : nwf n -> In it (items n) -> i_term it = false ->
  In e (tn_kvs n) -> tn_d n < length (fst e) -> nth (tn_d n) (fst e) 0 = i_label it -> In e (i_grp it).
Proof.
  intros W H T He L B. destruct (item_of n e He) as (it' & Hit' & He'). destruct (i_term it') eqn:T'.
  - exfalso. destruct (item_term n it' W Hit' T') as (e0 & r & _ & G & E0 & _). rewrite G in He'. destruct He' as [<-|[]].
    rewrite E0, ndpath_length in L by auto. lia.
  - destruct (item_noterm n it' e W Hit' T' He') as (_ & _ & B').
    assert (it' = it); [|now subst].
    pose proof (nodup_noterm n W) as ND.
    assert (I1 : In it (filter noterm (items n))) by (apply filter_In; split; auto; unfold noterm; now rewrite T).
    assert (I2 : In it' (filter noterm (items n))) by (apply filter_In; split; auto; unfold noterm; now rewrite T').
    assert (EL : i_label it' = i_label it) by congruence. clear -ND I1 I2 EL.
    induction (filter noterm (items n)) as [|x l IH]; [destruct I1|]. cbn [map] in ND. inversion ND; subst.
    destruct I1 as [->|I1], I2 as [->|I2]; auto.
    + exfalso. apply H1. rewrite <- EL. now apply in_map.
    + exfalso. apply H1. rewrite EL. now apply in_map.
Qed.

Lemma child_npath n it : nwf n -> In it (items n) -> hasc it = true -> npath (mkchild it) = ndpath n ++ [i_label it].
Proof.
  intros W H Hc. pose proof (item_hasc_noterm n it H Hc) as T. pose proof (child_wf n it W H Hc) as Wc.
  destruct (key0_in _ Wc) as (e & He & E). unfold npath. rewrite <- E. rewrite (child_pd n it H).
  change (tn_kvs (mkchild it)) with (i_grp it) in He.
  destruct (item_noterm n it e W H T He) as (H1 & H2 & H3). rewrite firstn_S_nth by auto. rewrite H3. f_equal.
  pose proof (ndpath_prefix n e W H1) as P. apply is_prefix_firstn_iff in P. now rewrite ndpath_length in P.
Qed.

Lemma child_ninv kvs n it : ninv kvs n -> In it (items n) -> hasc it = true -> ninv kvs (mkchild it).
Proof.
  intros [W I A] H Hc. pose proof (item_hasc_noterm n it H Hc) as T. constructor.
  - now apply (child_wf n).
  - change (tn_kvs (mkchild it)) with (i_grp it). intros e He. apply I. eapply item_grp_incl; eauto.
  - intros e He P. change (tn_kvs (mkchild it)) with (i_grp it). rewrite (child_npath n it W H Hc) in P.
    assert (In e (tn_kvs n)).
    { apply A; auto. eapply is_prefix_trans; [now apply npath_ndpath|]. eapply is_prefix_trans; [|exact P]. exists [i_label it]. reflexivity. }
    pose proof (is_prefix_length _ _ P) as L. rewrite app_length, ndpath_length in L by auto. cbn [length] in L.
    apply (item_grp_noterm n it e W H T); auto; [lia|]. destruct P as (x & P). rewrite P.
    rewrite <- app_assoc. rewrite app_nth2 by (rewrite ndpath_length; auto). rewrite ndpath_length, Nat.sub_diag by auto. reflexivity.
Qed.

Lemma root_ninv kvs : nwf (mknode kvs 0) -> ninv kvs (mknode kvs 0).
Proof. intros W. constructor; auto. apply incl_refl. Qed.

Lemma trie_ninv kvs : nwf (mknode kvs 0) -> Forall (ninv kvs) (concat (trie kvs)).
Proof.
  intros W. unfold trie. assert (G : forall k F, Forall (ninv kvs) F -> Forall (ninv kvs) (concat (blevels k F))).
  { induction k as [|k IH]; intros F HF; [constructor|]. cbn [blevels]. destruct F as [|x F]; [constructor|]. set (G := x :: F) in *. cbn [concat].
    apply Forall_app. split; auto. apply IH. apply Forall_forall. intros m Hm. apply in_flat_map in Hm as (p & Hp & Hm).
    unfold children in Hm. apply in_map_iff in Hm as (it & <- & Hm). apply filter_In in Hm as [H1 H2]. rewrite Forall_forall in HF. eapply child_ninv; eauto. }
  apply G. constructor; [now apply root_ninv|constructor].
Qed.

(** *** Distinguishing prefixes *)
Definition ikey (n : tnode) (it : item) : bytes := if i_term it then ndpath n else ndpath n ++ [i_label it].

Lemma unique_prefix_iff keys s n : unique_prefix keys s n = true <-> forall k, In k keys -> is_prefix (firstn n s) k -> k = s.
Proof.
  unfold unique_prefix. rewrite forallb_forall. split; intros H k Hk.
  - intros P. specialize (H k Hk). apply orb_prop in H as [H|H]; [now apply beqb_eq|]. apply is_prefixb_iff in P. rewrite P in H. discriminate.
  - destruct (beqb k s) eqn:E; auto. cbn [orb]. destruct (is_prefixb (firstn n s) k) eqn:P; auto. apply is_prefixb_iff in P. rewrite (H k Hk P) in E.
    assert (beqb s s = true) by now apply beqb_eq. congruence.
Qed.

Lemma dprefix_unique keys s m : 1 <= m <= length s -> unique_prefix keys s m = true ->
  (forall j, 1 <= j < m -> unique_prefix keys s j = false) -> dprefix keys s = firstn m s.
Proof.
  intros Hm HU HN. unfold dprefix. assert (E : find (unique_prefix keys s) (seq 1 (length s)) = Some m); [|now rewrite E].
  replace (length s) with ((m - 1) + (length s - (m - 1))) by lia. rewrite seq_app.
  assert (F : forall l1 l2, (forall x, In x l1 -> unique_prefix keys s x = false) -> find (unique_prefix keys s) (l1 ++ l2) = find (unique_prefix keys s) l2).
  { induction l1 as [|x l1 IH]; intros l2 H; [reflexivity|]. cbn [app find]. rewrite (H x) by now left. apply IH. intros y Hy. apply H. now right. }
  rewrite F by (intros x Hx; apply in_seq in Hx; apply HN; lia).
  replace (length s - (m - 1)) with (S (length s - m)) by lia. cbn [seq find]. replace (1 + (m - 1)) with m by lia. now rewrite HU.
Qed.

Lemma dprefix_none keys s : (forall j, 1 <= j <= length s -> unique_prefix keys s j = false) -> dprefix keys s = s.
Proof.
  intros H. unfold dprefix. destruct (find _ _) as [n|] eqn:E; auto. apply find_some in E as [E1 E2]. apply in_seq in E1. rewrite H in E2 by lia. discriminate.
Qed.

Lemma inc_eq (kvs : list kv) e e' : increasing (map fst kvs) -> In e kvs -> In e' kvs -> fst e = fst e' -> e = e'.
Proof.
  intros HI H H' E. apply increasing_NoDup in HI. clear -HI H H' E. induction kvs as [|x l IH]; [destruct H|]. cbn [map] in HI. inversion HI; subst.
  destruct H as [->|H], H' as [->|H']; auto.
  - exfalso. apply H2. rewrite E. now apply in_map.
  - exfalso. apply H2. rewrite <- E. now apply in_map.
Qed.

(** A node other than a single-key root holds another key besides any given one. *)
Lemma other_key n e : nwf n -> 2 <= length (tn_kvs n) -> In e (tn_kvs n) -> exists e', In e' (tn_kvs n) /\ fst e' <> fst e.
Proof.
  intros W L H. pose proof (w_inc n W) as I. destruct (tn_kvs n) as [|a [|b r]] eqn:K; cbn [length] in L; try lia.
  cbn [map increasing] in I. destruct I as [I _]. assert (fst a <> fst b) by (intros E; rewrite E in I; now apply blt_irrefl in I).
  destruct (list_eq_dec Nat.eq_dec (fst a) (fst e)) as [E|E].
  - exists b. split; [right; left; auto|]. congruence.
  - exists a. split; [left; auto|auto].
Qed.

Lemma leaf_dprefix kvs n it e : increasing (map fst kvs) -> ninv kvs n -> (2 <= length (tn_kvs n) \/ tn_d n = 0) -> In it (items n) -> i_grp it = [e] ->
  dprefix (map fst kvs) (fst e) = ikey n it.
Proof.
  intros HI [W I A] TW H G. assert (He : In e (tn_kvs n)) by (eapply item_grp_incl; eauto; rewrite G; left; auto). unfold ikey.
  destruct (i_term it) eqn:T.
  - destruct (item_term n it W H T) as (e0 & r & K & G' & E0 & NE & _). rewrite G in G'. inversion G'; subst e0. rewrite <- E0.
    apply dprefix_none. intros j Hj. destruct (unique_prefix _ _ j) eqn:U; auto. exfalso.
    destruct r as [|x r]; [congruence|]. pose proof (w_inc n W) as WI. rewrite K in WI. cbn [map increasing] in WI. destruct WI as [WI _].
      assert (fst x = fst e).
      { apply (proj1 (unique_prefix_iff _ _ _) U); [apply in_map; apply I; rewrite K; right; left; auto|].
        eapply is_prefix_trans; [apply is_prefix_firstn|]. rewrite E0. apply ndpath_prefix; auto. rewrite K. right. left. auto. }
      rewrite H0 in WI. now apply blt_irrefl in WI.
  - destruct (item_noterm n it e W H T) as (_ & L & B); [rewrite G; left; auto|].
    assert (FE : firstn (S (tn_d n)) (fst e) = ndpath n ++ [i_label it]).
    { rewrite firstn_S_nth, B by auto. f_equal. pose proof (ndpath_prefix n e W He) as P. apply is_prefix_firstn_iff in P. now rewrite ndpath_length in P. }
    rewrite <- FE. apply dprefix_unique.
    + lia.
    + apply unique_prefix_iff. intros k Hk P. apply in_map_iff in Hk as (e' & <- & He'). rewrite FE in P. f_equal.
      assert (In e' (tn_kvs n)).
      { apply A; auto. eapply is_prefix_trans; [now apply npath_ndpath|]. eapply is_prefix_trans; [|exact P]. eexists; reflexivity. }
      assert (In e' (i_grp it)).
      { pose proof (is_prefix_length _ _ P) as LP. rewrite app_length, ndpath_length in LP by auto. cbn [length] in LP. apply (item_grp_noterm n it e' W H T); auto; [lia|].
        destruct P as (x & P). rewrite P, <- app_assoc, app_nth2 by (rewrite ndpath_length; auto). rewrite ndpath_length, Nat.sub_diag by auto. reflexivity. }
      rewrite G in H1. destruct H1 as [<-|[]]. reflexivity.
    + intros j Hj. destruct (unique_prefix _ _ j) eqn:U; auto. exfalso. destruct TW as [TW|TW]; [|lia].
      destruct (other_key n e W TW He) as (e' & He' & NE). apply NE. apply (proj1 (unique_prefix_iff _ _ _) U).
      * apply in_map. now apply I.
      * pose proof (ndpath_prefix n e' W He') as P'. pose proof (ndpath_prefix n e W He) as P.
        eapply is_prefix_trans; [|exact P']. apply (is_prefix_comparable _ _ (fst e)); auto; [apply is_prefix_firstn|].
        rewrite firstn_length, ndpath_length by auto. lia.
Qed.
