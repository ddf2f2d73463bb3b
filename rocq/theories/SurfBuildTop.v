(** * Build succeeds and represents the trie of its input. *)
From Verif Require Import Base SurfSpec BitsModel BitsFacts VecModel VecProofs VecProofs2 SurfModel SurfTrie SurfSuffix SurfBuild SurfDense SurfEnc.
Ltac Zify.zify_post_hook ::= Z.div_mod_to_equations.

(** ** The prefixes fit *)
Definition wsum (n : tnode) : nat := nsum (map (fun e => length (fst e) - tn_pd n) (tn_kvs n)).
Definition psum (ns : list tnode) : nat := nsum (map (fun n => length (nprefix n)) ns).

Lemma nsum_le {A} (f g : A -> nat) l : (forall x, In x l -> f x <= g x) -> nsum (map f l) <= nsum (map g l).
Proof. induction l; intros H; cbn; [lia|]. pose proof (H a (or_introl eq_refl)). assert (nsum (map f l) <= nsum (map g l)) by (apply IHl; intros; apply H; right; auto). unfold nsum in *. lia. Qed.

Lemma nsum_concat {A} (f : A -> nat) (LL : list (list A)) : nsum (map f (concat LL)) = nsum (map (fun l => nsum (map f l)) LL).
Proof. induction LL; [reflexivity|]. cbn [concat map]. rewrite map_app, nsum_app, IHLL. reflexivity. Qed.

Lemma wsum_children n : nwf n -> length (nprefix n) + nsum (map wsum (children n)) <= wsum n.
Proof.
  intros W.
  assert (PL : length (nprefix n) <= tn_d n - tn_pd n) by (unfold nprefix; rewrite firstn_length; lia).
  assert (H1 : nsum (map wsum (children n)) <= nsum (map (fun e => length (fst e) - tn_d n) (tn_kvs n))).
  { rewrite <- (items_kvs (tn_d n) (tn_kvs n)) at 1. change (items_at (tn_d n) (tn_kvs n)) with (items n).
    rewrite nsum_concat. unfold children. rewrite !map_map.
    assert (X : forall its, (forall it, In it its -> In it (items n)) ->
      nsum (map (fun x => wsum (mkchild x)) (filter hasc its)) <= nsum (map (fun x => nsum (map (fun e : kv => length (fst e) - tn_d n) (i_grp x))) its)).
    { induction its as [|it its IH]; intros HI; [cbn; lia|]. cbn [filter map]. 
      assert (IH' := IH (fun x Hx => HI x (or_intror Hx))). unfold nsum in *. cbn [fold_right].
      destruct (hasc it); [|lia]. cbn [map fold_right].
      assert (wsum (mkchild it) <= fold_right Nat.add 0 (map (fun e : kv => length (fst e) - tn_d n) (i_grp it))); [|lia].
      unfold wsum, mkchild, mknode. cbn [tn_kvs tn_pd]. apply nsum_le. intros e _. rewrite (item_depth n it) by (apply HI; left; auto). lia. }
    apply X. auto. }
  pose proof (w_ne n W) as NE. pose proof (w_share n W) as SH. pose proof (w_pd n W) as PD. unfold wsum at 2.
  assert (SL : forall e, In e (tn_kvs n) -> tn_d n <= length (fst e)) by (intros e He; eapply share_length; eauto).
  destruct (tn_kvs n) as [|e r]; [congruence|]. cbn [map] in *. unfold nsum in *. cbn [fold_right] in *.
  pose proof (SL e (or_introl eq_refl)).
  pose proof (nsum_le (fun e : kv => length (fst e) - tn_d n) (fun e : kv => length (fst e) - tn_pd n) r) as LE. unfold nsum in LE.
  assert (forall x, In x r -> length (fst x) - tn_d n <= length (fst x) - tn_pd n) by (intros; lia). specialize (LE H0). lia.
Qed.

Lemma psum_levels k : forall F, small k F -> psum (concat (blevels k F)) <= nsum (map wsum F).
Proof.
  induction k as [|k IH]; intros F S; [cbn; lia|]. cbn [blevels]. destruct F as [|n F']; [cbn; lia|].
  set (F := n :: F') in *. cbn [concat]. unfold psum. rewrite map_app, nsum_app. fold (psum F). fold (psum (concat (blevels k (flat_map children F)))).
  pose proof (IH _ (small_children k F S)) as H.
  assert (X : psum F + nsum (map wsum (flat_map children F)) <= nsum (map wsum F)).
  { clear -S. induction F as [|m F IH]; [cbn; lia|]. inversion S; subst. specialize (IH H2). cbn [flat_map]. rewrite map_app, nsum_app.
    pose proof (wsum_children m (proj1 H1)). unfold psum, nsum in *. cbn [map fold_right] in *. lia. }
  unfold psum, nsum in *. lia.
Qed.

Lemma concat_length_nsum {A} (l : list (list A)) : length (concat l) = nsum (map (@length A) l).
Proof. induction l; [reflexivity|]. cbn [concat map]. rewrite app_length, IHl. reflexivity. Qed.

(* ------------------------------------------------------------------ *)
(** ** Build *)

Definition trie (kvs : list kv) : list (list tnode) := blevels (length kvs) [mknode kvs 0].

Lemma zip_kvs_combine keys : forall vals, length keys <= length vals -> zip_kvs keys vals = Ok (combine keys vals).
Proof.
  induction keys as [|k ks IH]; intros vals H; [reflexivity|]. destruct vals as [|v vs]; [cbn in H; lia|].
  cbn [zip_kvs combine]. rewrite IH by (cbn in H; lia). reflexivity.
Qed.

Lemma map_fst_combine {A B} (l : list A) : forall (l' : list B), length l <= length l' -> map fst (combine l l') = l.
Proof. induction l; intros [|b l'] H; cbn in *; try lia; auto. f_equal. apply IHl. lia. Qed.
Lemma map_snd_combine {A B} (l : list A) : forall (l' : list B), map snd (combine l l') = firstn (length l) l'.
Proof. induction l; intros [|b l']; cbn; auto. f_equal. apply IHl. Qed.

Lemma cutoff_le l : forall ls extra sz, cutoff l ls extra sz <= l.
Proof. induction l; intros; cbn [cutoff]; [lia|]. destruct (N.leb _ _); [lia|]. specialize (IHl ls extra sz). lia. Qed.

Lemma share_0 kvs : share 0 kvs.
Proof. exists []. split; auto. apply Forall_forall. intros. exists (fst x). reflexivity. Qed.

Lemma root_wf kvs : kvs <> [] -> increasing (map fst kvs) -> Forall (fun e => wf_bytes (fst e) = true) kvs -> map fst kvs <> [[]] -> nwf (mknode kvs 0).
Proof.
  intros Hn Hi Hb He. destruct (branch_spec (S (length (key0 kvs))) kvs 0 Hn Hi (share_0 kvs)) as (A & B & C); [lia|].
  constructor; cbn [mknode tn_kvs tn_pd tn_d]; auto. intros E1.
  destruct kvs as [|e [|? ?]]; cbn in E1; try lia. cbn [branch]. unfold oneway at 1. cbn [is_term length].
  replace (negb (Nat.leb (length (fst e)) 0) && negb (Nat.eqb 1 1)) with false by (rewrite andb_comm; reflexivity). cbn [andb].
  destruct (Nat.leb_spec (length (fst e)) 0); auto. exfalso. apply He. cbn. destruct (fst e); [reflexivity|cbn in *; lia].
Qed.

Lemma trie_two kvs : nwf (mknode kvs 0) -> 2 <= length kvs -> forall ns, In ns (trie kvs) -> Forall (fun n => 2 <= length (tn_kvs n)) ns.
Proof.
  intros W H2. unfold trie. 
  assert (G : forall k F, small k F -> Forall (fun n => 2 <= length (tn_kvs n)) F -> forall ns, In ns (blevels k F) -> Forall (fun n => 2 <= length (tn_kvs n)) ns).
  { induction k as [|k IH]; intros F SF F2 ns Hin; [destruct Hin|]. cbn [blevels] in Hin. destruct F as [|n F']; [destruct Hin|]. 
    set (F := n :: F') in *. destruct Hin as [<-|Hin]; auto. apply (IH (flat_map children F)); auto.
    - now apply small_children.
    - apply Forall_forall. intros x Hx. apply in_flat_map in Hx as (m & Hm & Hx). unfold children in Hx. apply in_map_iff in Hx as (it & <- & Hit).
      apply filter_In in Hit as [_ Hc]. unfold hasc in Hc. apply Nat.ltb_lt in Hc. cbn [mkchild mknode tn_kvs]. lia. }
  apply G.
  - constructor; [|constructor]. split; auto.
  - constructor; auto.
Qed.

Lemma psum_le_firstn h L : psum (concat (firstn h L)) <= psum (concat L).
Proof. rewrite <- (firstn_skipn h L) at 2. rewrite concat_app. unfold psum. rewrite map_app, nsum_app. lia. Qed.
Lemma psum_le_skipn h L : psum (concat (skipn h L)) <= psum (concat L).
Proof. rewrite <- (firstn_skipn h L) at 2. rewrite concat_app. unfold psum. rewrite map_app, nsum_app. lia. Qed.
Lemma psum_length ns : length (concat (map nprefix ns)) = psum ns.
Proof. rewrite concat_length_nsum, map_map. reflexivity. Qed.

Definition surf_rep (fp : bytes -> N) (c : config) (NSS : list (list tnode)) (h : nat) (s : surf) : Prop :=
  h < length NSS /\ linked NSS /\ (exists root, nth_error NSS 0 = Some [root]) /\ Forall nwf (concat NSS) /\
  ld_rep fp c (s_ld s) h (concat (firstn h NSS)) /\
  ls_rep fp c (s_ls s) (length NSS) h (concat (firstn h NSS)) (concat (skipn h NSS)).

Definition mkcfg (vs h r : nat) : config := b_config (newBuilder vs h r).

Lemma trie_head kvs : kvs <> [] -> nth_error (trie kvs) 0 = Some [mknode kvs 0].
Proof. intros H. unfold trie. destruct kvs; [congruence|]. reflexivity. Qed.

Theorem surf_build_full fp vs h r keys vals hint fuel :
  valid_input vs h r keys vals -> Forall (fun k => length k < fuel) keys ->
  exists s b' lvs, surf_build fp fuel (newBuilder vs h r) keys vals hint = Ok (s, b') /\
    surf_rep fp (mkcfg vs h r) (trie (combine keys vals)) (determineCutoffLevel lvs (length keys) (h + r) hint) s /\
    lreps fp (mkcfg vs h r) lvs (trie (combine keys vals)) /\
    b_levels b' = lvs /\ b_sparseStart b' = determineCutoffLevel lvs (length keys) (h + r) hint /\
    ld_init b' = Ok (s_ld s) /\ ls_init b' = Ok (s_ls s).
Proof.
  intros V HFu. set (kvs := combine keys vals). set (c := mkcfg vs h r).
  assert (MF : map fst kvs = keys) by (apply map_fst_combine; apply V).
  assert (LK : length kvs = length keys) by (rewrite <- MF; symmetry; apply map_length).
  assert (KNE : kvs <> []) by (intros E; rewrite E in MF; cbn in MF; symmetry in MF; now apply (v_ne _ _ _ _ _ V)).
  assert (KB : Forall (fun e : kv => wf_bytes (fst e) = true) kvs).
  { pose proof (v_byte _ _ _ _ _ V) as B. rewrite <- MF, Forall_map in B. exact B. }
  assert (W : nwf (mknode kvs 0)).
  { apply root_wf; auto. - rewrite MF. apply V. - rewrite MF. apply V. }
  assert (SM : small (length kvs) [mknode kvs 0]) by (constructor; [split; auto|constructor]).
  assert (CT : cfg_ok c).
  { split; [reflexivity|]. cbn [c mkcfg]. apply V. }
  assert (K : kok c (fuel - 1) 0 kvs).
  { constructor; auto.
    - rewrite MF. apply V.
    - apply share_0.
    - pose proof (v_size _ _ _ _ _ V) as S. rewrite <- map_snd_combine, Forall_map in S. exact S.
    - rewrite <- MF, Forall_map in HFu. eapply Forall_impl; [|exact HFu]. cbn. intros. lia. }
  assert (F0 : 0 < fuel).
  { destruct keys as [|k ks]; [exfalso; now apply (v_ne _ _ _ _ _ V)|]. inversion HFu; subst. lia. }
  destruct (buildNodes_spec fp c ltac:(apply CT) fuel (fuel - 1) kvs 0 0 0 [] [] [] [] (length kvs) K) as (lvs & E & R); auto.
  { intros H1. pose proof (w_one _ W H1) as T. cbn [mknode tn_kvs tn_d] in T. destruct kvs as [|e [|? ?]]; cbn in H1; try lia.
    cbn [branch] in T. unfold oneway in T at 1. cbn [is_term length] in T.
    replace (negb (Nat.leb (length (fst e)) 0) && negb (Nat.eqb 1 1)) with false in T by (rewrite andb_comm; reflexivity). cbn [andb] in T. exact T. }
  { lia. } { constructor. }
  cbn [app merge] in E, R. fold (mknode kvs 0) in R. fold (trie kvs) in R. set (NSS := trie kvs) in *.
  assert (LL : length lvs = length NSS) by (eapply Forall2_length; exact R).
  assert (HD : nth_error NSS 0 = Some [mknode kvs 0]) by (apply trie_head; auto).
  assert (LN : 0 < length NSS) by (apply nth_error_Some; congruence).
  assert (LKD : linked NSS) by (apply blevels_linked; auto; discriminate).
  assert (WF : Forall nwf (concat NSS)) by (eapply lreps_in; exact R).
  assert (PS : fits32 (psum (concat NSS))).
  { eapply fits32_le; [|apply V]. etransitivity; [apply psum_levels; auto|]. rewrite concat_length_nsum, <- MF, map_map.
    unfold nsum, wsum. cbn [map fold_right mknode tn_kvs tn_pd]. rewrite Nat.add_0_r. apply nsum_le. intros. lia. }
  unfold surf_build. rewrite zip_kvs_combine by apply V. cbn [bind]. fold kvs. fold (mkcfg vs h r). fold c.
  change (b_levels (newBuilder vs h r)) with (@nil level). rewrite E. cbn [bind].
  set (cut := determineCutoffLevel lvs (length keys) _ hint).
  assert (CL : cut < length NSS).
  { unfold cut, determineCutoffLevel. match goal with |- cutoff ?a ?b ?c ?d < _ => pose proof (cutoff_le a b c d) end. lia. }
  set (b0 := mkBuilder cut _ _ lvs _ _ _ _ _ _).
  destruct (buildDense_spec fp c lvs NSS cut [] b0 R) as (ldl & ldh & ldp & E2 & D & L1 & L2 & L3); auto.
  { cbn [length Nat.add]. apply Forall_forall. intros ns Hns. destruct (Nat.lt_ge_cases (length kvs) 2) as [L1|L1].
    - assert (NL : length NSS = 1).
      { destruct kvs as [|e [|? ?]]; [congruence| |cbn in L1; lia]. subst NSS. unfold trie. cbn [length blevels].
        reflexivity. }
      replace cut with 0 in Hns by lia. destruct Hns.
    - assert (IN : In ns NSS) by (rewrite <- (firstn_skipn cut NSS); apply in_or_app; auto). split.
      + eapply blevels_ne. exact IN. + eapply trie_two; eauto. }
  { cbn. lia. } { split; [|split]; constructor. }
  cbn [length Nat.add] in *. rewrite E2. cbn [bind].
  destruct (pre_init fp c lvs NSS R) as (pv & EP & _). { rewrite psum_length. exact PS. } rewrite EP. cbn [bind].
  set (b1 := mkBuilder _ _ _ lvs ldl ldh ldp _ _ _).
  destruct (ld_init_spec fp c b1 NSS ldl ldh ldp cut) as (ld & E3 & R3); auto.
  { lia. } { rewrite psum_length. eapply fits32_le; [apply psum_le_firstn|exact PS]. }
  rewrite E3. cbn [bind].
  destruct (ls_init_spec fp c b1 NSS cut) as (ls & E4 & R4); auto.
  { eexists; exact HD. } { rewrite psum_length. eapply fits32_le; [apply psum_le_skipn|exact PS]. }
  rewrite E4. cbn [bind]. exists (mkSurf ld ls), b1, lvs. split; [reflexivity|]. 
  split; [split; auto; split; auto; split; [eexists; exact HD|]; split; auto|].
  split; auto.
Qed.

Theorem surf_build_spec fp vs h r keys vals hint fuel :
  valid_input vs h r keys vals -> Forall (fun k => length k < fuel) keys ->
  exists s b' cut, surf_build fp fuel (newBuilder vs h r) keys vals hint = Ok (s, b') /\
    surf_rep fp (mkcfg vs h r) (trie (combine keys vals)) cut s.
Proof.
  intros V HFu. destruct (surf_build_full fp vs h r keys vals hint fuel V HFu) as (s & b' & lvs & E & R & _).
  eexists s, b', _. split; [exact E|exact R].
Qed.
