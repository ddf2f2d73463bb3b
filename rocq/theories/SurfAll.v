(** * SurfAll: exactly which queries hit, proper prefixes of stored keys included. *)
From Verif Require Import Base BitsModel BitsFacts VecModel VecProofs VecProofs2 SurfModel SurfTrie SurfSuffix SurfBuild SurfDense SurfEnc SurfBuildTop SurfGet SurfGet2 SurfSpec SurfWalk SurfTop SurfGetSpec SurfExact.
Ltac Zify.zify_post_hook ::= Z.div_mod_to_equations.

Lemma beqb_false a b : beqb a b = false <-> a <> b.
Proof. rewrite <- not_true_iff_false, beqb_eq. tauto. Qed.

Lemma splitb_iff keys w : splitb keys w = true <->
  exists k1 k2, In k1 keys /\ In k2 keys /\ is_prefix w k1 /\ is_prefix w k2 /\ firstn (S (length w)) k1 <> firstn (S (length w)) k2.
Proof.
  unfold splitb. rewrite existsb_exists. split.
  - intros (k1 & H1 & E). apply existsb_exists in E as (k2 & H2 & E). apply andb_true_iff in E as (E & E3). apply andb_true_iff in E as (E1 & E2).
    exists k1, k2. rewrite is_prefixb_iff in E1, E2. apply negb_true_iff, beqb_false in E3. auto.
  - intros (k1 & k2 & H1 & H2 & P1 & P2 & NE). exists k1. split; auto. apply existsb_exists. exists k2. split; auto.
    apply is_prefixb_iff in P1, P2. rewrite P1, P2. cbn [andb]. now apply negb_true_iff, beqb_false.
Qed.

(** ** Branchings are nodes *)
Lemma node_keys kvs n w k : ninv kvs n -> is_prefix (npath n) w -> In k (map fst kvs) -> is_prefix w k -> exists e, In e (tn_kvs n) /\ fst e = k.
Proof.
  intros NI P Hk PK. apply in_map_iff in Hk as (e & <- & He). exists e. split; auto. apply (ni_all _ _ NI); auto. eapply is_prefix_trans; eauto.
Qed.

Lemma node_nosplit kvs n w : ninv kvs n -> is_prefix (npath n) w -> is_prefix w (ndpath n) -> length w < tn_d n -> splitb (map fst kvs) w = false.
Proof.
  intros NI P1 P2 L. pose proof (ni_wf _ _ NI) as W. apply not_true_iff_false. rewrite splitb_iff. intros (k1 & k2 & H1 & H2 & Q1 & Q2 & NE). apply NE.
  destruct (node_keys kvs n w k1 NI P1 H1 Q1) as (e1 & I1 & <-). destruct (node_keys kvs n w k2 NI P1 H2 Q2) as (e2 & I2 & <-).
  pose proof (share_firstn _ _ e1 e2 (w_share n W) I1 I2) as E. apply (f_equal (firstn (S (length w)))) in E. rewrite !firstn_firstn in E.
  now replace (Nat.min (S (length w)) (tn_d n)) with (S (length w)) in E by lia.
Qed.

Lemma emit_one d : forall rest b cur, Forall (fun e => kbyte d e = b) rest -> emit d b cur rest = [(b, cur ++ rest)].
Proof.
  induction rest as [|e r IH]; intros b cur H; cbn [emit]; [now rewrite app_nil_r|]. inversion H; subst. rewrite Nat.eqb_refl, IH by auto.
  now rewrite <- app_assoc.
Qed.

Lemma nth_firstn_lt (l : bytes) : forall m i, i < m -> nth i (firstn m l) 0 = nth i l 0.
Proof. induction l as [|x l IH]; intros [|m] [|i] H; cbn [firstn nth]; auto; try lia. apply IH. lia. Qed.
Lemma filter_none {A} (f : A -> bool) l : (forall x, In x l -> f x = false) -> filter f l = [].
Proof. induction l as [|x l IH]; intros H; cbn [filter]; auto. rewrite (H x) by now left. apply IH. intros y Hy. apply H. now right. Qed.

Lemma firstn_S_eq (a b : bytes) d : firstn (S d) a = firstn (S d) b -> nth d a 0 = nth d b 0.
Proof.
  intros E. destruct (Nat.lt_ge_cases d (length a)) as [La|La], (Nat.lt_ge_cases d (length b)) as [Lb|Lb].
  - apply (f_equal (fun l => nth d l 0)) in E. rewrite !nth_firstn_lt in E by lia. exact E.
  - exfalso. apply (f_equal (@length nat)) in E. rewrite !firstn_length in E. lia.
  - exfalso. apply (f_equal (@length nat)) in E. rewrite !firstn_length in E. lia.
  - now rewrite !nth_overflow.
Qed.

Lemma node_split kvs n : ninv kvs n -> 2 <= length (tn_kvs n) -> splitb (map fst kvs) (ndpath n) = true.
Proof.
  intros NI L. pose proof (ni_wf _ _ NI) as W. destruct (splitb (map fst kvs) (ndpath n)) eqn:E; auto. exfalso.
  assert (SM : forall e1 e2, In e1 (tn_kvs n) -> In e2 (tn_kvs n) -> firstn (S (tn_d n)) (fst e1) = firstn (S (tn_d n)) (fst e2)).
  { intros e1 e2 H1 H2. destruct (list_eq_dec Nat.eq_dec (firstn (S (tn_d n)) (fst e1)) (firstn (S (tn_d n)) (fst e2))) as [|NE]; auto. exfalso.
    apply not_true_iff_false in E. apply E. apply splitb_iff. exists (fst e1), (fst e2). rewrite ndpath_length by auto.
    split; [apply in_map; now apply (ni_incl _ _ NI)|]. split; [apply in_map; now apply (ni_incl _ _ NI)|]. split; [now apply ndpath_prefix|]. split; [now apply ndpath_prefix|exact NE]. }
  pose proof (w_branch n W) as B. unfold oneway in B. destruct (tn_kvs n) as [|a [|b r]] eqn:K; cbn [length] in L; try lia.
  destruct (is_term (tn_d n) (a :: b :: r)) eqn:T.
  - cbn [is_term] in T. apply Nat.leb_le in T. specialize (SM a b (or_introl eq_refl) (or_intror (or_introl eq_refl))).
    assert (Pa : length (fst a) = tn_d n).
    { pose proof (share_length _ _ a (w_share n W)) as X. rewrite K in X. specialize (X (or_introl eq_refl)). lia. }
    apply (f_equal (@length nat)) in SM as SL. rewrite !firstn_length in SL.
    pose proof (w_inc n W) as WI. rewrite K in WI. cbn [map increasing] in WI. destruct WI as [WI _].
    rewrite (firstn_all2 (fst a)), (firstn_all2 (fst b)) in SM by lia. rewrite SM in WI. now apply blt_irrefl in WI.
  - cbn [negb andb] in B. change (length (a :: b :: r) =? 1) with false in B. cbn [negb andb] in B. unfold groups in B.
    rewrite emit_one in B; [discriminate|]. apply Forall_forall. intros e He. unfold kbyte. apply firstn_S_eq. apply SM; [now right|now left].
Qed.

Definition levels_from (keys : list bytes) (q : bytes) (p : nat) : nat := length (filter (fun j => splitb keys (firstn j q)) (seq p (length q - p))).

Lemma levels_child kvs n it q : ninv kvs n -> In it (items n) -> hasc it = true -> is_prefix (ndpath n ++ [i_label it]) q ->
  levels_from (map fst kvs) q (tn_pd n) = S (levels_from (map fst kvs) q (S (tn_d n))).
Proof.
  intros NI Hit Hc P. pose proof (ni_wf _ _ NI) as W. pose proof (w_pd n W) as PD. unfold levels_from.
  pose proof (is_prefix_length _ _ P) as L. rewrite app_length, ndpath_length in L by auto. cbn [length] in L.
  assert (PQ : is_prefix (ndpath n) q) by (eapply is_prefix_trans; [|exact P]; eexists; reflexivity).
  assert (FD : firstn (tn_d n) q = ndpath n) by (apply is_prefix_firstn_iff in PQ; now rewrite ndpath_length in PQ).
  replace (length q - tn_pd n) with ((tn_d n - tn_pd n) + S (length q - S (tn_d n))) by lia. rewrite seq_app, filter_app, app_length.
  replace (filter _ (seq (tn_pd n) (tn_d n - tn_pd n))) with (@nil nat).
  - cbn [length Nat.add seq filter]. replace (tn_pd n + (tn_d n - tn_pd n)) with (tn_d n) by lia. rewrite FD.
    rewrite (node_split kvs n NI); [reflexivity|]. assert (I1 : length (i_grp it) <= length (tn_kvs n)).
    { apply NoDup_incl_length; [|now apply item_grp_incl]. pose proof (child_ninv kvs n it NI Hit Hc) as CI. pose proof (w_inc _ (ni_wf _ _ CI)) as ND.
      apply increasing_NoDup in ND. now apply NoDup_map_inv in ND. }
    unfold hasc in Hc. apply Nat.ltb_lt in Hc. lia.
  - symmetry. apply filter_none. intros j Hj. apply in_seq in Hj. 
    assert (FJ : is_prefix (firstn j q) (ndpath n)). { rewrite <- FD. replace j with (Nat.min j (tn_d n)) by lia. rewrite <- firstn_firstn. apply is_prefix_firstn. }
    apply (node_nosplit kvs n); auto.
    + apply (is_prefix_comparable _ _ (ndpath n)); auto; [now apply npath_ndpath|]. rewrite npath_length, firstn_length by auto. lia.
    + rewrite firstn_length. lia.
Qed.

(** ** Suffixes at the end of a path *)
Lemma real_short key level r : length key < level -> constructRealSuffix key level r = Ok 0%N.
Proof. intros H. unfold constructRealSuffix. destruct (Nat.ltb_spec (length key) level); [reflexivity|lia]. Qed.

Lemma shlv_zero n : shlv 0 n = 0%N.
Proof. unfold shlv. destruct (n <? 64)%N; auto. Qed.

Lemma smatch_gap fp vs h r k q L L' : h + r <= 64 -> length k < L -> length q < L' ->
  (smatch fp (mkcfg vs h r) (sfx fp (c_type (mkcfg vs h r)) h r k L) q L' = true <-> same_hash fp h k q).
Proof.
  intros H Lk Lq. unfold smatch. replace (c_hashLen (mkcfg vs h r)) with h by reflexivity. replace (c_realLen (mkcfg vs h r)) with r by reflexivity.
  unfold sfx. destruct h as [|h'], r as [|r'].
  - cbn. split; auto. intros _ _ j Hj. lia.
  - change (c_type (mkcfg vs 0 (S r'))) with RealSuffix. cbn [constructSuffix]. rewrite !real_short by auto. cbn. split; auto. intros _ _ j Hj. lia.
  - change (c_type (mkcfg vs (S h') 0)) with HashSuffix. set (h := S h') in *. cbn [constructSuffix]. rewrite N.eqb_eq. apply hash_same. lia.
  - change (c_type (mkcfg vs (S h') (S r'))) with MixedSuffix. set (h := S h') in *. set (r := S r') in *. cbn [constructSuffix]. unfold constructMixedSuffix.
    rewrite !real_short by auto. cbn [bind]. rewrite N.eqb_eq. rewrite <- (hash_same fp h) by lia. split; [|now intros ->].
    intros E. apply mixed_inj in E as (E & _); auto; [apply pow2_nat_pos..|].
    intros i Hi. rewrite !(tb_high _ h i) by (try lia; apply constructHashSuffix_bound; lia). reflexivity.
Qed.

Section Hits.
Variable fp : bytes -> N.
Variables vs h r : nat.
Hypothesis HR : h + r <= 64.
Notation c := (mkcfg vs h r).

(** Why the lookup from node [n] with [dl] dense levels left hits. *)
Inductive hitn (dl pd : nat) (keys : list bytes) (k q : bytes) : Prop :=
| hn_stored : k = q -> hitn dl pd keys k q
| hn_prefix : ~ continued keys k -> is_prefix (dprefix keys k) q -> suffix_agrees fp h r (length (dprefix keys k)) k q -> hitn dl pd keys k q
| hn_gap : gap keys k q -> dl <= levels_from keys q pd -> same_hash fp h k q -> hitn dl pd keys k q
| hn_255 : keys = [k] -> q = [] -> hd 0 k = 255 -> suffix_agrees fp h r 1 k q -> hitn dl pd keys k q.

Lemma leafres_hit it e q level v : i_grp it = [e] -> leafres fp c it q level = Some v ->
  smatch fp c (sfx fp (c_type c) h r (fst e) (i_depth it + 1)) q level = true /\ v = firstn vs (snd e).
Proof.
  intros G E. unfold leafres, sufv, ivalue, i_kv in E. rewrite G in E. cbn [hd] in E.
  change (c_hashLen c) with h in E. change (c_realLen c) with r in E. change (c_valueSize c) with vs in E.
  destruct (smatch _ _ _ _ _); [split; congruence|discriminate].
Qed.
Lemma leafres_yes it e q level : i_grp it = [e] -> smatch fp c (sfx fp (c_type c) h r (fst e) (i_depth it + 1)) q level = true ->
  leafres fp c it q level = Some (firstn vs (snd e)).
Proof.
  intros G E. unfold leafres, sufv, ivalue, i_kv. rewrite G. cbn [hd]. change (c_hashLen c) with h. change (c_realLen c) with r. change (c_valueSize c) with vs.
  now rewrite E.
Qed.

Lemma term_continued kvs n it e r0 : ninv kvs n -> tn_kvs n = e :: r0 -> fst e = ndpath n -> r0 <> [] -> In it (items n) -> continued (map fst kvs) (fst e).
Proof.
  intros NI K E0 NE Hit. pose proof (ni_wf _ _ NI) as W. destruct r0 as [|x r0]; [congruence|]. exists (fst x).
  assert (Hx : In x (tn_kvs n)) by (rewrite K; right; left; auto).
  split; [apply in_map; now apply (ni_incl _ _ NI)|]. split; [rewrite E0; now apply ndpath_prefix|]. pose proof (w_inc n W) as WI. rewrite K in WI. cbn [map increasing] in WI.
  destruct WI as [WI _]. intros E. rewrite E in WI. now apply blt_irrefl in WI.
Qed.

(** The end of a sparse lookup. *)
Lemma aend_sparse_hitn kvs n q depth v : increasing (map fst kvs) -> Forall (fun e => wf_bytes (fst e) = true) kvs -> wf_bytes q = true -> ninv kvs n -> two_or_top n ->
  is_prefix (npath n) q -> is_prefix q (ndpath n) -> (q = [] \/ splitb (map fst kvs) (removelast q) = true \/ q = ndpath n) -> length q = depth ->
  aend_sparse fp c n q depth = Some v ->
  exists e, In e kvs /\ v = firstn vs (snd e) /\ hitn 0 (tn_pd n) (map fst kvs) (fst e) q.
Proof.
  intros HI WB Wq NI TW P1 P2 ED LQ H. pose proof (ni_wf _ _ NI) as W. unfold aend_sparse in H. destruct (items_nonempty n W) as (it & r0 & EI). rewrite EI in H.
  destruct (Nat.eqb_spec (i_label it) labelTerminator) as [L|]; [|discriminate]. cbn [andb] in H. destruct (hasc it) eqn:Hc; [discriminate|]. cbn [negb] in H.
  assert (Hit : In it (items n)) by (rewrite EI; left; auto). destruct (item_leaf n it Hit Hc) as (e & G).
  assert (He : In e (tn_kvs n)) by (eapply item_grp_incl; eauto; rewrite G; left; auto). assert (Hk := ni_incl _ _ NI e He).
  destruct (leafres_hit it e q _ v G H) as (SM & ->). exists e. split; auto. split; auto. rewrite (item_depth n it Hit) in SM.
  destruct (i_term it) eqn:T.
  - destruct (item_term n it W Hit T) as (e0 & r1 & K & G' & E0 & NE & _). rewrite G in G'. inversion G'; subst e0.
    destruct (list_eq_dec Nat.eq_dec q (ndpath n)) as [Eq|Nq]; [apply hn_stored; congruence|]. apply hn_gap; [|lia|].
    + split; [eapply term_continued; eauto|]. rewrite E0. split; auto. split; auto. split; [|tauto].
      intros k' Hk' PK. destruct (node_keys kvs n q k' NI P1 Hk' PK) as (e' & He' & <-). now apply ndpath_prefix.
    + apply (smatch_gap fp vs h r (fst e) q (tn_d n + 1) (depth + 1)); auto; [rewrite E0, ndpath_length by auto; lia|lia].
  - destruct r0 as [|x r0].
    + pose proof (one_item n it e EI G) as K. destruct TW as [TW|TW]; [rewrite K in TW; cbn in TW; lia|].
      assert (Eq : q = []). { apply is_prefix_length in P2. rewrite ndpath_length, TW in P2 by auto. destruct q; auto. cbn in P2. lia. }
      destruct (item_noterm n it e W Hit T) as (_ & Le & B); [rewrite G; left; auto|]. rewrite TW in B, Le.
      subst q. cbn [length] in LQ. subst depth. apply hn_255; auto.
      * assert (A : forall e', In e' kvs -> e' = e). { intros e' He'. assert (X : In e' (tn_kvs n)) by (apply (ni_all _ _ NI); auto; apply (is_prefix_trans _ []); [exact P1|exists (fst e'); reflexivity]).
          rewrite K in X. destruct X as [<-|[]]. reflexivity. }
        apply increasing_NoDup in HI. destruct kvs as [|a [|b l]]; [destruct Hk| |].
        -- rewrite (A a) by now left. reflexivity.
        -- exfalso. rewrite (A a), (A b) in HI by (cbn; auto). cbn [map] in HI. inversion HI; subst. apply H2. now left.
      * destruct (fst e) as [|b0 l]; [cbn in Le; lia|]. cbn in B |- *. rewrite B. exact L.
      * rewrite TW in SM. apply (smatch_agrees fp vs h r 1); auto. rewrite Forall_forall in WB. apply (WB e Hk).
    + exfalso. pose proof (first_label_term n it (x :: r0) W EI ltac:(discriminate)) as X. rewrite L, Nat.eqb_refl, T in X. discriminate.
Qed.

Definition endable (keys : list bytes) (p : bytes) : Prop := p = [] \/ splitb keys (removelast p) = true.

Theorem aget_hitn kvs q f : increasing (map fst kvs) -> Forall (fun e => wf_bytes (fst e) = true) kvs -> wf_bytes q = true -> forall dl n v, ninv kvs n -> two_or_top n ->
  is_prefix (npath n) q -> endable (map fst kvs) (npath n) ->
  aget fp c f dl n q = Some v -> exists e, In e kvs /\ v = firstn vs (snd e) /\ hitn dl (tn_pd n) (map fst kvs) (fst e) q.
Proof.
  intros HI WB Wq. induction f as [|f IH]; intros dl n v NI TW P EN H; [discriminate|]. pose proof (ni_wf _ _ NI) as W.
  assert (LK : forall dl', dl <= S dl' -> tn_d n < length q -> is_prefix (ndpath n) q -> match alook n q with None => None
     | Some it => if hasc it then aget fp c f dl' (mkchild it) q else leafres fp c it q (tn_d n + 1) end = Some v ->
     exists e, In e kvs /\ v = firstn vs (snd e) /\ hitn dl (tn_pd n) (map fst kvs) (fst e) q).
  { intros dl' DL L PD E. destruct (alook n q) as [it|] eqn:AL; [|discriminate]. destruct (alook_split n q it AL) as (A & B & EI & T & LB).
    assert (Hit : In it (items n)) by (rewrite EI; apply in_or_app; right; left; auto).
    pose proof (prefix_child n q W PD it Hit LB L) as PC. destruct (hasc it) eqn:Hc.
    - destruct (IH dl' (mkchild it) v) as (e & He & Ev & Hh); auto.
      + eapply child_ninv; eauto.
      + now apply child_two.
      + now rewrite (child_npath n it W Hit Hc).
      + rewrite (child_npath n it W Hit Hc). right. rewrite removelast_last. apply (node_split kvs n NI).
        assert (length (i_grp it) <= length (tn_kvs n)).
        { apply NoDup_incl_length; [|now apply item_grp_incl]. pose proof (child_ninv kvs n it NI Hit Hc) as CI. pose proof (w_inc _ (ni_wf _ _ CI)) as ND.
          apply increasing_NoDup in ND. now apply NoDup_map_inv in ND. }
        unfold hasc in Hc. apply Nat.ltb_lt in Hc. lia.
      + exists e. split; auto. split; auto. rewrite (child_pd n it Hit) in Hh. destruct Hh; [now apply hn_stored|now apply hn_prefix| |now apply hn_255].
        apply hn_gap; auto. rewrite (levels_child kvs n it q NI Hit Hc PC). lia.
    - destruct (item_leaf n it Hit Hc) as (e & G). assert (Hg : In e (i_grp it)) by (rewrite G; left; auto).
      assert (He : In e kvs) by (apply (ni_incl _ _ NI); eapply item_grp_incl; eauto). destruct (leafres_hit it e q _ v G E) as (SM & ->). exists e. split; auto. split; auto.
      destruct (leaf_len kvs n it e HI NI TW Hit T G) as (E1 & E2). apply hn_prefix.
      + eapply leaf_alone; eauto.
      + now rewrite E1.
      + rewrite E2. apply (smatch_agrees fp vs h r); auto; [rewrite Forall_forall in WB; apply (WB e He)|]. now rewrite (item_depth n it Hit) in SM. }
  assert (QE : length q <= tn_d n -> is_prefix (ndpath n) q -> q = ndpath n).
  { intros L PD. symmetry. apply is_prefix_eq; auto. rewrite ndpath_length; auto. }
  cbn [aget] in H. destruct dl as [|dl'].
  - destruct (Nat.leb_spec (length q) (tn_pd n)) as [Lp|Lp].
    { assert (Eq : q = npath n) by (symmetry; apply is_prefix_eq; auto; rewrite npath_length; auto). 
      apply (aend_sparse_hitn kvs n q (tn_pd n) v); auto.
      - rewrite Eq. now apply npath_ndpath.
      - rewrite Eq. destruct EN; auto.
      - rewrite Eq. now apply npath_length. }
    destruct (is_prefixb (nprefix n) (skipn (tn_pd n) q)) eqn:PX; [|discriminate]. apply prefix_check in PX; auto.
    destruct (Nat.leb_spec (length q) (tn_d n)) as [Ld|Ld]; [|apply (LK 0); auto].
    apply (aend_sparse_hitn kvs n q (tn_d n) v); auto; [rewrite (QE Ld PX); apply is_prefix_refl|]. rewrite (QE Ld PX). now apply ndpath_length.
  - destruct (is_prefixb (nprefix n) (skipn (tn_pd n) q)) eqn:PX; [|discriminate]. apply prefix_check in PX; auto.
    destruct (Nat.leb_spec (length q) (tn_d n)) as [Ld|Ld]; [|now apply (LK dl')].
    unfold aend_dense in H. destruct (find i_term (items n)) as [it|] eqn:F; [|discriminate]. apply find_some in F as [Hit T].
    destruct (item_term n it W Hit T) as (e & r0 & K & G & E0 & _). destruct (leafres_hit it e q _ v G H) as (SM & ->).
    assert (He : In e (tn_kvs n)) by (rewrite K; left; auto). exists e. split; [now apply (ni_incl _ _ NI)|]. split; auto. apply hn_stored. rewrite E0. symmetry. now apply QE.
Qed.

(** ** The other direction *)
Theorem aget_prefix kvs q f : increasing (map fst kvs) -> forall dl n e, ninv kvs n -> two_or_top n -> is_prefix (npath n) q ->
  In e (tn_kvs n) -> ~ continued (map fst kvs) (fst e) -> is_prefix (dprefix (map fst kvs) (fst e)) q -> length q < f + tn_pd n ->
  aget fp c f dl n q = if leaf_match fp c e q (length (dprefix (map fst kvs) (fst e))) then Some (firstn vs (snd e)) else None.
Proof.
  intros HI. induction f as [|f IH]; intros dl n e NI TW P He NC PQ L.
  { exfalso. apply is_prefix_length in P. rewrite npath_length in P by apply NI. lia. }
  pose proof (ni_wf _ _ NI) as W. pose proof (w_pd n W) as WP. destruct (item_of n e He) as (it & Hit & Hg).
  destruct (i_term it) eqn:T.
  { exfalso. destruct (item_term n it W Hit T) as (e0 & r0 & K & G & E0 & NE & _). rewrite G in Hg. destruct Hg as [<-|[]]. apply NC. eapply term_continued; eauto. }
  assert (PC : is_prefix (ndpath n ++ [i_label it]) q).
  { destruct (hasc it) eqn:Hc.
    - apply (is_prefix_trans _ (dprefix (map fst kvs) (fst e))); auto.
      pose proof (child_ninv kvs n it NI Hit Hc) as CI. pose proof (child_two it Hc) as CT.
      destruct (other_key (mkchild it) e (ni_wf _ _ CI)) as (e' & He' & NE); [|exact Hg|].
      + unfold hasc in Hc. apply Nat.ltb_lt in Hc. change (tn_kvs (mkchild it)) with (i_grp it). lia.
      + apply (dprefix_cover _ _ (fst e')); auto; [apply in_map; now apply (ni_incl _ _ CI)| |]; apply label_prefix; auto.
    - destruct (item_leaf n it Hit Hc) as (e' & G). rewrite G in Hg. destruct Hg as [<-|[]]. destruct (leaf_len kvs n it e' HI NI TW Hit T G) as (<- & _). exact PQ. }
  pose proof (is_prefix_length _ _ PC) as LC. rewrite app_length, ndpath_length in LC by auto. cbn [length] in LC.
  cbn [aget]. replace (is_prefixb (nprefix n) (skipn (tn_pd n) q)) with true.
  2: { symmetry. apply prefix_check; auto. eapply is_prefix_trans; [|exact PC]. eexists; reflexivity. }
  destruct (Nat.leb_spec (length q) (tn_pd n)); [lia|]. destruct (Nat.leb_spec (length q) (tn_d n)); [lia|].
  rewrite (alook_label n it q W Hit T PC). destruct (hasc it) eqn:Hc.
  - assert (X : forall dl', aget fp c f dl' (mkchild it) q = if leaf_match fp c e q (length (dprefix (map fst kvs) (fst e))) then Some (firstn vs (snd e)) else None).
    { intros dl'. apply IH; auto.
      + eapply child_ninv; eauto.
      + now apply child_two.
      + now rewrite (child_npath n it W Hit Hc).
      + rewrite (child_pd n it Hit). lia. }
    destruct dl; apply X.
  - destruct (item_leaf n it Hit Hc) as (e' & G). rewrite G in Hg. destruct Hg as [<-|[]]. destruct (leaf_len kvs n it e' HI NI TW Hit T G) as (_ & ->).
    destruct dl; now apply (leafres_leaf fp c).
Qed.

Theorem aget_gap kvs q f : increasing (map fst kvs) -> forall dl n e, ninv kvs n -> two_or_top n -> is_prefix (npath n) q ->
  In e (tn_kvs n) -> gap (map fst kvs) (fst e) q -> dl <= levels_from (map fst kvs) q (tn_pd n) -> same_hash fp h (fst e) q -> length q < f + tn_pd n ->
  aget fp c f dl n q = Some (firstn vs (snd e)).
Proof.
  intros HI. induction f as [|f IH]; intros dl n e NI TW P He GP DL SH L.
  { exfalso. apply is_prefix_length in P. rewrite npath_length in P by apply NI. lia. }
  pose proof (ni_wf _ _ NI) as W. pose proof (w_pd n W) as WP. pose proof GP as ((k' & Hk' & PK' & NK') & PQ & NQ & AL & EQ).
  assert (He'x : exists e', In e' (tn_kvs n) /\ fst e' = k').
  { apply (node_keys kvs n (fst e) k' NI); auto. now apply npath_prefix. }
  destruct He'x as (e' & He' & Ee').
  assert (L2 : 2 <= length (tn_kvs n)).
  { destruct (tn_kvs n) as [|a [|b l]]; cbn [length] in *; try lia; [destruct He|]. destruct He as [<-|[]], He' as [<-|[]]. congruence. }
  pose proof (ndpath_prefix n e W He) as PN. cbn [aget]. destruct (Nat.le_gt_cases (length q) (tn_d n)) as [Ld|Ld].
  - assert (QD : is_prefix q (ndpath n)) by (apply (is_prefix_comparable _ _ (fst e)); auto; rewrite ndpath_length; auto).
    assert (E0 : fst e = ndpath n).
    { symmetry. apply is_prefix_eq; auto. rewrite ndpath_length by auto. destruct (Nat.le_gt_cases (length (fst e)) (tn_d n)) as [|G]; auto. exfalso.
      pose proof (node_split kvs n NI L2) as SP. apply splitb_iff in SP as (k1 & k2 & H1 & H2 & P1 & P2 & NE). apply NE. rewrite ndpath_length by auto.
      assert (Q : forall k, In k (map fst kvs) -> is_prefix (ndpath n) k -> firstn (S (tn_d n)) k = firstn (S (tn_d n)) (fst e)).
      { intros k Hk Pk. assert (X : is_prefix (fst e) k) by (apply AL; auto; apply (is_prefix_trans _ (ndpath n)); auto). destruct X as (x & ->).
        rewrite firstn_app. replace (S (tn_d n) - length (fst e)) with 0 by lia. cbn [firstn]. apply app_nil_r. }
      rewrite (Q k1), (Q k2) by auto. reflexivity. }
    assert (Lq : length q < tn_d n).
    { destruct (Nat.lt_ge_cases (length q) (tn_d n)); auto. exfalso. apply NQ. rewrite E0. apply is_prefix_eq; auto. rewrite ndpath_length by auto. lia. }
    assert (Eq : q = npath n).
    { symmetry. apply is_prefix_eq; auto. rewrite npath_length by auto. destruct (Nat.le_gt_cases (length q) (tn_pd n)) as [|G]; auto. exfalso. destruct EQ as [->|EQ]; [cbn in G; lia|].
      assert (RL : removelast q = firstn (length q - 1) q) by (rewrite removelast_firstn_len; f_equal; lia).
      rewrite (node_nosplit kvs n (removelast q)) in EQ; [discriminate|auto| | |].
      - rewrite RL. apply (is_prefix_comparable _ _ q); auto; [apply is_prefix_firstn|]. rewrite npath_length, firstn_length by auto. lia.
      - rewrite RL. apply (is_prefix_trans _ q); auto. apply is_prefix_firstn.
      - rewrite RL, firstn_length. lia. }
    assert (LP : length q = tn_pd n) by (rewrite Eq; now apply npath_length).
    assert (dl = 0) by (unfold levels_from in DL; rewrite LP, Nat.sub_diag in DL; cbn in DL; lia). subst dl.
    destruct (Nat.leb_spec (length q) (tn_pd n)); [|lia].
    destruct (ends_term n e W He) as (it & r0 & EI & T & G); [rewrite E0, ndpath_length by auto; lia|].
    assert (Hit : In it (items n)) by (rewrite EI; left; auto).
    unfold aend_sparse. rewrite EI. rewrite (term_label n it W Hit T), Nat.eqb_refl, (hasc_single it e G). cbn [andb negb].
    apply (leafres_yes it e q _ G). rewrite (item_depth n it Hit). apply (smatch_gap fp vs h r (fst e) q (tn_d n + 1) (tn_pd n + 1)); auto; [|lia].
    rewrite E0, ndpath_length by auto. lia.
  - assert (PD : is_prefix (ndpath n) q) by (apply (is_prefix_comparable _ _ (fst e)); auto; rewrite ndpath_length by auto; lia).
    destruct (item_of n e He) as (it & Hit & Hg). destruct (i_term it) eqn:T.
    { exfalso. destruct (item_term n it W Hit T) as (e0 & r0 & K & G & E0 & NE & _). rewrite G in Hg. destruct Hg as [<-|[]]. apply is_prefix_length in PQ.
      rewrite E0, ndpath_length in PQ by auto. lia. }
    pose proof (label_prefix n it e W Hit T Hg) as PE.
    assert (PC : is_prefix (ndpath n ++ [i_label it]) q).
    { apply (is_prefix_comparable _ _ (fst e)); auto. rewrite app_length, ndpath_length by auto. cbn. lia. }
    assert (Hg' : In e' (i_grp it)).
    { assert (P' : is_prefix (ndpath n ++ [i_label it]) (fst e')) by (rewrite Ee'; apply (is_prefix_trans _ (fst e)); auto).
      pose proof (is_prefix_length _ _ P') as LPr. rewrite app_length, ndpath_length in LPr by auto. cbn [length] in LPr. apply (item_grp_noterm n it e' W Hit T); auto; [lia|].
      destruct P' as (x & P'). rewrite P', <- app_assoc, app_nth2 by (rewrite ndpath_length; auto). rewrite ndpath_length, Nat.sub_diag by auto. reflexivity. }
    assert (Hc : hasc it = true).
    { unfold hasc. apply Nat.ltb_lt. destruct (i_grp it) as [|a [|b l]]; cbn [length]; try lia; [destruct Hg|]. destruct Hg as [<-|[]], Hg' as [<-|[]]. congruence. }
    replace (is_prefixb (nprefix n) (skipn (tn_pd n) q)) with true by (symmetry; apply prefix_check; auto).
    destruct (Nat.leb_spec (length q) (tn_pd n)); [lia|]. destruct (Nat.leb_spec (length q) (tn_d n)); [lia|].
    rewrite (alook_label n it q W Hit T PC), Hc. rewrite (levels_child kvs n it q NI Hit Hc PC) in DL.
    assert (X : forall dl', dl' <= levels_from (map fst kvs) q (S (tn_d n)) -> aget fp c f dl' (mkchild it) q = Some (firstn vs (snd e))).
    { intros dl' D'. apply IH; auto.
      + eapply child_ninv; eauto.
      + now apply child_two.
      + now rewrite (child_npath n it W Hit Hc).
      + now rewrite (child_pd n it Hit).
      + rewrite (child_pd n it Hit). lia. }
    destruct dl; apply X; lia.
Qed.
End Hits.

(** ** Get *)
Lemma built_height fp vs h r keys vals hint s q : valid_input vs h r keys vals -> built fp vs h r keys vals hint s -> wf_bytes q = true ->
  surf_get fp s q = Ok (aget fp (mkcfg vs h r) (S (length q)) (ld_height (s_ld s)) (mknode (combine keys vals) 0) q) /\ (length keys = 1 -> ld_height (s_ld s) = 0).
Proof.
  intros V B Hq. destruct (built_rep fp vs h r keys vals hint s V B) as (cut & R & RW & CO & LO & MF & TH).
  assert (E : ld_height (s_ld s) = cut). { destruct R as (_ & _ & _ & _ & R & _). apply R. }
  split; [rewrite E; eapply surf_get_spec; eauto|]. intros L1. rewrite E.
  destruct R as (LT & _). unfold trie in LT.
  assert (BL : forall f F, length (blevels f F) <= f).
  { induction f as [|f IH]; intros F; cbn [blevels]; [cbn; lia|]. destruct F; cbn [length]; [lia|]. specialize (IH (flat_map children (t :: F))). lia. }
  specialize (BL (length (combine keys vals)) [mknode (combine keys vals) 0]). rewrite <- MF, map_length in L1. lia.
Qed.

Lemma hitn_hit fp h r dl keys k q : hitn fp h r dl 0 keys k q <-> hit_by fp h r dl keys k q.
Proof.
  assert (E : levels_from keys q 0 = levels_above keys q) by (unfold levels_from, levels_above; now rewrite Nat.sub_0_r).
  split; intros []; [now apply hit_stored|now apply hit_prefix|apply hit_gap; auto; lia|now apply hit_255|now apply hn_stored|now apply hn_prefix|apply hn_gap; auto; lia|now apply hn_255].
Qed.

Theorem get_all fp vs h r keys vals hint s q : valid_input vs h r keys vals -> built fp vs h r keys vals hint s -> wf_bytes q = true ->
  forall v, surf_get fp s q = Ok (Some v) <->
    exists i k w, nth_error keys i = Some k /\ nth_error vals i = Some w /\ v = firstn vs w /\ hit_by fp h r (ld_height (s_ld s)) keys k q.
Proof.
  intros V B Hq v. destruct (root_args fp vs h r keys vals hint s V B) as (MF & NI & TW).
  destruct (built_height fp vs h r keys vals hint s q V B Hq) as (EG & H1). rewrite EG.
  set (kvs := combine keys vals) in *. set (dl := ld_height (s_ld s)) in *.
  assert (HI : increasing (map fst kvs)) by (rewrite MF; apply V).
  assert (WB : Forall (fun e : kv => wf_bytes (fst e) = true) kvs) by (pose proof (v_byte _ _ _ _ _ V) as X; rewrite <- MF, Forall_map in X; exact X).
  assert (P0 : is_prefix (npath (mknode kvs 0)) q) by (exists q; reflexivity). pose proof (v_suffix _ _ _ _ _ V) as HR.
  split.
  - intros E. apply Ok_eq in E. destruct (aget_hitn fp vs h r HR kvs q (S (length q)) HI WB Hq dl (mknode kvs 0) v NI TW P0) as (e & He & Ev & Hh); auto; [now left|].
    destruct (in_combine_nth keys vals e He) as (i & I1 & I2). exists i, (fst e), (snd e). do 3 (split; auto). apply hitn_hit. now rewrite <- MF.
  - intros (i & k & w & I1 & I2 & -> & Hh). pose proof (combine_nth_In keys vals i k w I1 I2) as He. fold kvs in He. f_equal.
    assert (Wk : wf_bytes k = true) by (rewrite Forall_forall in WB; apply (WB _ He)).
    destruct Hh as [<-|NC PQ SA|GP DL SH|EK -> H255 SA].
    + apply (aget_stored fp (mkcfg vs h r) (S (length k)) dl (mknode kvs 0) (k, w)); auto; [apply NI|cbn; lia].
    + rewrite <- MF in NC, PQ, SA. rewrite (aget_prefix fp vs h r HR kvs q (S (length q)) HI dl (mknode kvs 0) (k, w) NI TW P0); auto; [|cbn; lia].
      unfold leaf_match. change (c_hashLen (mkcfg vs h r)) with h. change (c_realLen (mkcfg vs h r)) with r. cbn [fst].
      now rewrite (proj2 (smatch_agrees fp vs h r _ k q HR Wk Hq) SA).
    + rewrite <- MF in GP, DL. apply (aget_gap fp vs h r HR kvs q (S (length q)) HI dl (mknode kvs 0) (k, w) NI TW P0); auto.
      * unfold levels_from. cbn [mknode tn_pd]. rewrite Nat.sub_0_r. exact DL.
      * cbn. lia.
    + rewrite H1 by (rewrite EK; reflexivity). cbn [length aget mknode tn_pd Nat.leb]. pose proof (ni_wf _ _ NI) as W.
      assert (K : kvs = [(k, w)]). { destruct kvs as [|a [|b l]]; [destruct He| |rewrite <- MF in EK; discriminate EK]. destruct He as [->|[]]. reflexivity. }
      assert (D0 : tn_d (mknode kvs 0) = 0) by (destruct TW as [TW|TW]; auto; cbn [mknode tn_kvs] in TW; rewrite K in TW; cbn in TW; lia).
      destruct (item_of (mknode kvs 0) (k, w) He) as (it & Hit & Hg). destruct (i_term it) eqn:T.
      { exfalso. destruct (item_term _ it W Hit T) as (e0 & r0 & K' & _ & _ & NE & _). cbn [mknode tn_kvs] in K'. rewrite K in K'. injection K' as _ <-. congruence. }
      destruct (item_noterm _ it (k, w) W Hit T Hg) as (_ & LL & B0). rewrite D0 in LL, B0. cbn [fst] in LL, B0.
      assert (HC : hasc it = false).
      { destruct (hasc it) eqn:X; auto. exfalso. pose proof (child_ninv kvs _ it NI Hit X) as CI. pose proof (ni_incl _ _ CI) as II. unfold hasc in X. apply Nat.ltb_lt in X.
        pose proof (NoDup_incl_length (NoDup_map_inv _ _ (increasing_NoDup _ (w_inc _ (ni_wf _ _ CI)))) II) as Y. rewrite K in Y. cbn [length] in Y.
        change (tn_kvs (mkchild it)) with (i_grp it) in Y. lia. }
      destruct (item_leaf _ it Hit HC) as (e' & G). rewrite G in Hg. destruct Hg as [->|[]].
      assert (EI : exists l, items (mknode kvs 0) = it :: l).
      { destruct (items_nonempty _ W) as (it0 & l0 & E0). destruct l0 as [|x l0].
        - rewrite E0 in Hit. destruct Hit as [->|[]]. eauto.
        - exfalso. pose proof (items_kvs (tn_d (mknode kvs 0)) (tn_kvs (mknode kvs 0))) as IK. fold (items (mknode kvs 0)) in IK. rewrite E0 in IK. cbn [map concat mknode tn_kvs] in IK.
          assert (N1 : i_grp it0 <> []) by (apply (item_grp_ne (mknode kvs 0)); rewrite E0; now left). assert (N2 : i_grp x <> []) by (apply (item_grp_ne (mknode kvs 0)); rewrite E0; right; now left).
          rewrite K in IK. apply (f_equal (@length kv)) in IK. rewrite !app_length in IK. cbn [length] in IK. destruct (i_grp it0), (i_grp x); try congruence. cbn [length] in IK. lia. }
      destruct EI as (l & EI). unfold aend_sparse. rewrite EI. rewrite HC. cbn [negb].
      assert (LT : i_label it = labelTerminator) by (rewrite <- B0; destruct k; [cbn in LL; lia|exact H255]). rewrite LT, Nat.eqb_refl. cbn [andb].
      apply (leafres_yes fp vs h r it (k, w) [] (0 + 1) G). rewrite (item_depth _ it Hit), D0. cbn [fst Nat.add]. now apply smatch_agrees.
Qed.

(** ** When the dense/sparse split matters *)
Lemma gap_only fp h r dense keys k k2 q : In k keys -> In k2 keys -> gap keys k q -> hit_by fp h r dense keys k2 q -> dense <= levels_above keys q.
Proof.
  intros Hk Hk2 ((k' & Hk' & PK & NK) & PQ & NQ & AL & EQ) [->|NC PD _|_ DL _|EK _ _ _]; auto; exfalso.
  - apply NQ. apply is_prefix_eq; auto. apply is_prefix_length. apply AL; auto. apply is_prefix_refl.
  - unfold dprefix in PD. destruct (find _ _) as [m|] eqn:F.
    + apply find_some in F as (_ & F). pose proof (proj1 (unique_prefix_iff _ _ _) F) as U.
      apply NK. rewrite (U k Hk), (U k' Hk'); auto; apply (is_prefix_trans _ q); auto. apply (is_prefix_trans _ k); auto.
    + apply NC. exists k. split; auto. split; [apply (is_prefix_trans _ q); auto|]. intros ->. apply NQ. apply is_prefix_eq; auto. now apply is_prefix_length.
  - subst keys. destruct Hk as [<-|[]], Hk' as [<-|[]]. congruence.
Qed.

Lemma hit_dense fp h r d1 d2 keys k q : hit_by fp h r d1 keys k q ->
  hit_by fp h r d2 keys k q \/ (gap keys k q /\ same_hash fp h k q /\ d1 <= levels_above keys q < d2).
Proof.
  intros [E|NC PD SA|GP DL SH|EK E H SA]; [left; now apply hit_stored|left; now apply hit_prefix| |left; now apply hit_255].
  destruct (Nat.le_gt_cases d2 (levels_above keys q)); [left; now apply hit_gap|right; auto].
Qed.

Theorem split_exact fp vs h r keys vals hint1 hint2 s1 s2 q : valid_input vs h r keys vals ->
  built fp vs h r keys vals hint1 s1 -> built fp vs h r keys vals hint2 s2 -> wf_bytes q = true ->
  (surf_get fp s1 q <> surf_get fp s2 q <-> exists k, In k keys /\ gap keys k q /\ same_hash fp h k q /\
     Nat.min (ld_height (s_ld s1)) (ld_height (s_ld s2)) <= levels_above keys q < Nat.max (ld_height (s_ld s1)) (ld_height (s_ld s2))).
Proof.
  intros V B1 B2 Hq. pose proof (get_all _ _ _ _ _ _ _ s1 q V B1 Hq) as A1. pose proof (get_all _ _ _ _ _ _ _ s2 q V B2 Hq) as A2.
  destruct (get_total _ _ _ _ _ _ _ s1 q V B1 Hq) as (a1 & E1). destruct (get_total _ _ _ _ _ _ _ s2 q V B2 Hq) as (a2 & E2). rewrite E1, E2 in *.
  set (d1 := ld_height (s_ld s1)) in *. set (d2 := ld_height (s_ld s2)) in *. split.
  - assert (S : forall d d' a a' , (forall v, Ok a = Ok (Some v) <-> exists i k w, nth_error keys i = Some k /\ nth_error vals i = Some w /\ v = firstn vs w /\ hit_by fp h r d keys k q) ->
       (forall v, Ok a' = Ok (Some v) <-> exists i k w, nth_error keys i = Some k /\ nth_error vals i = Some w /\ v = firstn vs w /\ hit_by fp h r d' keys k q) ->
       forall v, a = Some v -> a' = Some v \/ exists k, In k keys /\ gap keys k q /\ same_hash fp h k q /\ d <= levels_above keys q < d').
    { intros d d' a a' X X' v ->. destruct (proj1 (X v) eq_refl) as (i & k & w & I1 & I2 & -> & Hh). destruct (hit_dense fp h r d d' keys k q Hh) as [Hd|(GP & SH & DL)].
      - left. apply Ok_eq. apply X'. exists i, k, w. auto.
      - right. exists k. split; auto. eapply nth_error_In; eauto. }
    intros NE. destruct a1 as [v1|].
    + destruct (S d1 d2 (Some v1) a2 A1 A2 v1 eq_refl) as [->|(k & Hk & GP & SH & DL)]; [congruence|]. exists k. do 3 (split; auto). lia.
    + destruct a2 as [v2|]; [|congruence]. destruct (S d2 d1 (Some v2) None A2 A1 v2 eq_refl) as [E|(k & Hk & GP & SH & DL)]; [congruence|]. exists k. do 3 (split; auto). lia.
  - intros (k & Hk & GP & SH & DL) E. apply Ok_eq in E. subst a2. destruct (In_nth_error _ _ Hk) as (i & I1).
    assert (I2 : exists w, nth_error vals i = Some w).
    { destruct (nth_error vals i) eqn:X; eauto. exfalso. apply nth_error_None in X. pose proof (v_vals _ _ _ _ _ V). assert (i < length keys) by (apply nth_error_Some; congruence). lia. }
    destruct I2 as (w & I2). destruct a1 as [v|].
    + assert (X1 : d1 <= levels_above keys q).
      { destruct (proj1 (A1 v) eq_refl) as (i1 & k1 & w1 & J1 & _ & _ & Hh). apply (gap_only fp h r d1 keys k k1 q); auto. eapply nth_error_In; eauto. }
      assert (X2 : d2 <= levels_above keys q).
      { destruct (proj1 (A2 v) eq_refl) as (i1 & k1 & w1 & J1 & _ & _ & Hh). apply (gap_only fp h r d2 keys k k1 q); auto. eapply nth_error_In; eauto. }
      lia.
    + destruct (Nat.le_gt_cases d1 (levels_above keys q)) as [X|X].
      * assert (Y : Ok None = Ok (Some (firstn vs w))) by (apply A1; exists i, k, w; do 3 (split; auto); now apply hit_gap). discriminate Y.
      * assert (Y : Ok None = Ok (Some (firstn vs w))) by (apply A2; exists i, k, w; do 3 (split; auto); apply hit_gap; auto; lia). discriminate Y.
Qed.
