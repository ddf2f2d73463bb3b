(** * Seek and HasOverlap in terms of the stored keys. *)
From Coq Require Import Sorted.
From Verif Require Import Base BitsModel BitsFacts VecModel VecProofs VecProofs2 SurfModel SurfTrie SurfSuffix SurfBuild SurfDense SurfEnc SurfBuildTop SurfGet SurfGet2 SurfSpec SurfWalk SurfTop SurfSuffix3 SurfGetSpec SurfExact SurfIter SurfIterSpec SurfLevel SurfVerdict SurfIterLevel SurfIterPath SurfIterDense SurfIterSparse SurfIterTop SurfIterMain SurfIterSeek SurfIterSeek2 SurfIterCmp.

Lemma prefix_free_noterm kvs n x : prefix_free (map fst kvs) -> ninv kvs n -> In x (items n) -> i_term x = false.
Proof.
  intros PF [W IN _] Ix. destruct (i_term x) eqn:T; auto. exfalso.
  destruct (item_term n x W Ix T) as (e & r & EK & G & FE & NE & _). destruct r as [|y r]; [congruence|].
  pose proof (w_inc n W) as WI. rewrite EK in WI. cbn [map increasing] in WI. destruct WI as [WI _].
  assert (Hy : In y (tn_kvs n)) by (rewrite EK; right; now left). assert (He : In e (tn_kvs n)) by (rewrite EK; now left).
  assert (E : fst e = fst y). { apply PF; try (apply in_map; apply IN; auto). rewrite FE. now apply ndpath_prefix. }
  rewrite E in WI. now apply blt_irrefl in WI.
Qed.

(** A node with a terminator is the place of a stored key that is a proper prefix of another. *)
Lemma term_inner kvs n x e : ninv kvs n -> In x (items n) -> i_term x = true -> i_grp x = [e] -> inner_key (map fst kvs) (fst e) /\ fst e = ndpath n.
Proof.
  intros [W IN _] Ix T G'. destruct (item_term n x W Ix T) as (e0 & r & EK & G & FE & NE & _). rewrite G' in G. assert (e0 = e) by congruence. subst e0. split; [|exact FE].
  destruct r as [|y r]; [congruence|]. pose proof (w_inc n W) as WI. rewrite EK in WI. cbn [map increasing] in WI. destruct WI as [WI _].
  assert (Hy : In y (tn_kvs n)) by (rewrite EK; right; now left). assert (He : In e (tn_kvs n)) by (rewrite EK; now left).
  split; [apply in_map; now apply IN|]. exists (fst y). split; [apply in_map; now apply IN|]. split; [rewrite FE; now apply ndpath_prefix|].
  intros E. rewrite E in WI. now apply blt_irrefl in WI.
Qed.
(** A key below a node is below the child of its next byte. *)
Lemma below_item kvs n e : ninv kvs n -> In e kvs -> is_prefix (ndpath n) (fst e) -> tn_d n < length (fst e) ->
  exists y, In y (items n) /\ i_term y = false /\ i_label y = nth (tn_d n) (fst e) 0.
Proof.
  intros N I P L. pose proof (ni_wf _ _ N) as W.
  assert (IN : In e (tn_kvs n)). { apply (ni_all _ _ N); auto. rewrite <- (nprefix_path n W) in P. destruct P as (z & ->). exists (nprefix n ++ z). now rewrite app_assoc. }
  destruct (item_of n e IN) as (y & Iy & Gy). exists y. split; auto. destruct (i_term y) eqn:Ty.
  - exfalso. destruct (item_term n y W Iy Ty) as (e2 & l2 & _ & G2 & _). destruct (term_inner _ _ _ _ N Iy Ty G2) as [_ E2]. rewrite G2 in Gy. destruct Gy as [<-|[]].
    rewrite E2, (ndpath_length n W) in L. lia.
  - split; auto. now destruct (item_noterm n y e W Iy Ty Gy) as (_ & _ & <-).
Qed.
Lemma path_ok_qt kvs NSS h q : linked NSS -> nth_error NSS 0 = Some [mknode kvs 0] -> Forall (ninv kvs) (concat NSS) -> path_ok h (map fst kvs) q ->
  forall n x, In n (concat (skipn h NSS)) -> In x (items n) -> i_term x = true -> is_prefix (ndpath n) q -> tn_d n < length q ->
  (exists y, In y (items n) /\ i_term y = false /\ i_label y = nth (tn_d n) q 0) \/
  (exists y z, In y (items n) /\ In z (items n) /\ i_term y = false /\ i_term z = false /\ nth (tn_d n) q 0 < i_label y < i_label z).
Proof.
  intros LK RT NI H n x Hn Ix T PN CL. pose proof (skipn_level kvs NSS h LK RT NI n Hn) as SL. rewrite Forall_forall in NI.
  assert (N : ninv kvs n) by (apply NI; rewrite <- (firstn_skipn h NSS), concat_app; apply in_or_app; now right). pose proof (ni_wf _ _ N) as W.
  destruct (item_term n x W Ix T) as (e & l & _ & G & _). destruct (term_inner _ _ _ _ N Ix T G) as [IK E]. rewrite <- E in PN, SL. pose proof (ndpath_length n W) as NL.
  destruct (H _ IK SL PN) as [(k' & I' & P')|(k1 & k2 & I1 & I2 & P1 & P2 & LT)].
  - left. apply in_map_iff in I' as (e' & <- & I'). rewrite E in PN. rewrite E, NL in P'.
    assert (EQ : firstn (S (tn_d n)) q = ndpath n ++ [nth (tn_d n) q 0]).
    { apply is_prefix_firstn_iff in PN. rewrite NL in PN. rewrite <- PN. pose proof (firstn_nth_prefix (tn_d n) q 0 CL) as P2. apply is_prefix_firstn_iff in P2.
      rewrite app_length, firstn_length_le in P2 by lia. cbn [length] in P2. rewrite Nat.add_1_r in P2. exact P2. }
    rewrite EQ in P'. assert (PE : is_prefix (ndpath n) (fst e')) by (destruct P' as (z & ->); exists ([nth (tn_d n) q 0] ++ z); now rewrite <- app_assoc).
    assert (L' : tn_d n < length (fst e')) by (apply is_prefix_length in P'; rewrite app_length in P'; cbn [length] in P'; lia).
    destruct (below_item kvs n e' N I' PE L') as (y & Iy & Ty & Ly). exists y. split; auto. split; auto. rewrite Ly. destruct P' as (z & ->).
    rewrite <- app_assoc, app_nth2 by lia. rewrite NL, Nat.sub_diag. reflexivity.
  - right. apply in_map_iff in I1 as (e1 & <- & I1). apply in_map_iff in I2 as (e2 & <- & I2). rewrite E in P1, P2, LT. rewrite NL in LT.
    assert (LG : forall e : kv, 0 < nth (tn_d n) (fst e) 0 -> tn_d n < length (fst e)) by (intros e0 H0; destruct (Nat.lt_ge_cases (tn_d n) (length (fst e0))); auto; rewrite nth_overflow in H0; lia).
    destruct (below_item kvs n e1 N I1 P1) as (y & Iy & Ty & Ly); [apply LG; lia|]. destruct (below_item kvs n e2 N I2 P2) as (z & Iz & Tz & Lz); [apply LG; lia|].
    exists y, z. rewrite Ly, Lz. auto.
Qed.
Lemma seek_ok_stored dense r keys q : In q keys -> seek_ok dense r keys q.
Proof. intros I. split; auto. intros k _ _ P. left. exists q. split; auto. exists (skipn (S (length k)) q). symmetry. apply firstn_skipn. Qed.
Lemma seek_ok_apart dense r keys q : (forall k, inner_key keys k -> ~ is_prefix k q) -> suffix_ok r keys q -> seek_ok dense r keys q.
Proof. intros H S. split; auto. intros k I _ P. exfalso. exact (H k I P). Qed.
Lemma prefix_free_inner keys k : prefix_free keys -> ~ inner_key keys k.
Proof. intros H (I1 & k' & I2 & P & N). apply N. now apply H. Qed.

(** ** What the exact results say about the order of the keys *)
Lemma dprefix_pre keys k : is_prefix (dprefix keys k) k.
Proof. unfold dprefix. destruct (find _ _) as [n|]; [apply is_prefix_firstn|apply is_prefix_refl]. Qed.
Lemma dprefix_continued keys k : continued keys k -> dprefix keys k = k.
Proof.
  intros (k' & I & P & N). apply dprefix_none. intros j Hj. destruct (unique_prefix keys k j) eqn:U; auto. exfalso. apply N.
  apply (proj1 (unique_prefix_iff _ _ _) U); auto. eapply is_prefix_trans; [apply is_prefix_firstn|exact P].
Qed.
Lemma firstn_agree (d a b : bytes) : is_prefix d a -> is_prefix d b -> firstn (length d) a = firstn (length d) b.
Proof. intros Pa Pb. apply is_prefix_firstn_iff in Pa. apply is_prefix_firstn_iff in Pb. congruence. Qed.

Lemma skip_twice {T} (l : list T) : forall i j, skipn i (skipn j l) = skipn (j + i) l.
Proof. induction l as [|x l IH]; intros i [|j]; cbn; auto. now destruct i. Qed.

Section Order.
Variables (r : nat) (keys : list bytes).
Hypothesis WK : Forall (fun k => wf_bytes k = true) keys.

Lemma near_order k q : In k keys -> wf_bytes q = true -> (In q keys \/ suffix_ok r keys q) -> near keys k q ->
  (verdict r (length (dprefix keys k)) k q = Lt -> blt k q) /\ (verdict r (length (dprefix keys k)) k q = Gt -> blt q k) /\
  (verdict r (length (dprefix keys k)) k q = Eq -> undecided r keys k q).
Proof.
  intros Ik Wq S N. assert (Wk : wf_bytes k = true) by (rewrite Forall_forall in WK; auto). pose proof N as [_ P].
  destruct S as [Iq|[R8|A]].
  - pose proof (near_stored keys k q N Iq) as <-. unfold verdict. rewrite part_compare_refl. split; [discriminate|]. split; [discriminate|]. intros _. split; auto.
  - destruct (verdict_order r (length (dprefix keys k)) k q R8 Wk Wq) as (A & B & C). { apply firstn_agree; auto. apply dprefix_pre. }
    split; [exact A|]. split; [exact B|]. intros E. split; auto.
  - exfalso. exact (A k Ik P).
Qed.
Lemma passed_blt k q : In k keys -> wf_bytes q = true -> (In q keys \/ suffix_ok r keys q) -> passed r keys q k -> blt k q.
Proof. intros Ik Wq S [[N E]|[_ H]]; auto. now apply (near_order k q). Qed.

Lemma levels_reach dense k : forall m, m <= length k -> dense <= levels_above keys (firstn m k) -> exists j, j <= m /\ levels_above keys (firstn j k) = dense.
Proof.
  induction m as [|m IH]; intros L H.
  - exists 0. split; auto. change (firstn 0 k) with (@nil nat) in *. change (levels_above keys []) with 0 in *. lia.
  - destruct (Nat.le_gt_cases dense (levels_above keys (firstn m k))) as [LE|GT].
    + destruct IH as (j & Hj & E); [lia|exact LE|]. exists j. split; auto.
    + exists (S m). split; auto. assert (E : firstn (S m) k = firstn m k ++ [nth m k 0]) by (rewrite firstn_S_nth by lia; reflexivity).
      rewrite E in *. rewrite levels_snoc in *. destruct (splitb keys (firstn m k)); lia.
Qed.
Lemma hd_filter_le f : forall m a j, a <= j < a + m -> f j = true -> hd 0 (filter f (seq a m)) <= j.
Proof.
  induction m as [|m IH]; intros a j R T; [lia|]. cbn [seq filter]. destruct (f a) eqn:Fa; [cbn [hd]; lia|].
  destruct (Nat.eq_dec a j) as [->|NE]; [congruence|]. apply IH; auto. lia.
Qed.
Lemma start_depth_le dense k : dense <= leaf_level keys k -> start_depth dense keys k <= length (dprefix keys k).
Proof.
  intros H. pose proof (dprefix_pre keys k) as P. pose proof (is_prefix_length _ _ P) as L. apply is_prefix_firstn_iff in P.
  destruct (levels_reach dense k (length (dprefix keys k)) L) as (j & Hj & E); [rewrite P; unfold leaf_level in H; lia|].
  unfold start_depth. etransitivity; [apply (hd_filter_le _ _ _ j)|exact Hj]; [lia|]. now apply Nat.eqb_eq.
Qed.

(** Comparing with a bound respects the order, up to what the filter cannot tell. *)
Lemma compared_order dense k q : In k keys -> wf_bytes q = true -> suffix_ok r keys q ->
  match compared r dense keys k q with
  | Less => blt k q
  | Same => k = q \/ (is_prefix q k /\ continued keys k /\ dense <= levels_above keys k /\ length q = start_depth dense keys k)
  | Greater => blt q k
  | Unknown => undecided r keys k q
  end.
Proof.
  intros Ik Wq S. assert (Wk : wf_bytes k = true) by (rewrite Forall_forall in WK; auto). unfold compared. set (d := dprefix keys k).
  assert (Pk : is_prefix d k) by apply dprefix_pre.
  destruct (is_prefixb d q) eqn:P.
  - apply is_prefixb_iff in P. destruct (continuedb keys k && beqb d q) eqn:C.
    + apply andb_true_iff in C as [C E]. apply continuedb_iff in C. apply beqb_eq in E. left. rewrite <- E. symmetry. now apply dprefix_continued.
    + assert (R8 : r <= 8) by (destruct S as [|A]; auto; exfalso; exact (A k Ik P)).
      set (w := if dense <=? leaf_level keys k then start_depth dense keys k else 0).
      assert (LW : w <= length d) by (unfold w; destruct (Nat.leb_spec dense (leaf_level keys k)); [now apply start_depth_le|lia]).
      assert (EV : part_compare (real_or_zero (length d) r k) (real_or_zero (length d - w) r (skipn w q)) = verdict r (length d) k q).
      { unfold verdict. rewrite !part_topbits by (auto; apply wf_skipn; auto). rewrite skip_twice. now replace (w + (length d - w)) with (length d) by lia. }
      rewrite EV. destruct (verdict_order r (length d) k q R8 Wk Wq (firstn_agree d k q Pk P)) as (A & B & D).
      destruct (verdict r (length d) k q); auto. split; auto.
  - destruct ((dense <=? leaf_level keys k) && continuedb keys k && (length q =? (if dense <=? leaf_level keys k then start_depth dense keys k else 0)) && is_prefixb q d) eqn:C.
    + apply andb_true_iff in C as [C Q]. apply andb_true_iff in C as [C LQ]. apply andb_true_iff in C as [SP C]. rewrite SP in LQ. apply Nat.eqb_eq in LQ. apply Nat.leb_le in SP. unfold leaf_level in SP. rewrite C in SP. apply continuedb_iff in C. rewrite (dprefix_continued keys k C) in SP. apply is_prefixb_iff in Q. right. split; [eapply is_prefix_trans; eauto|]. split; [exact C|]. split; [lia|exact LQ].
    + destruct Pk as (z & Ek). destruct (bcompare d q) eqn:B.
      * exfalso. apply bcompare_eq in B. subst q. assert (is_prefixb d d = true) by (apply is_prefixb_iff, is_prefix_refl). congruence.
      * rewrite Ek. clear -B P. revert q B P. induction d as [|x d IH]; intros [|y q] B P; cbn [bcompare is_prefixb app] in *; try discriminate.
        unfold blt. cbn [bcompare]. destruct (Nat.compare_spec x y) as [E|E|E]; try discriminate; auto. subst y. rewrite Nat.eqb_refl in P. cbn [andb] in P. now apply IH.
      * apply bcompare_gt in B. eapply blt_ble_trans; [exact B|]. apply is_prefix_ble. now exists z.
Qed.
End Order.

Section Main.
Variables (fp : bytes -> N) (vs h r : nat) (keys vals : list bytes) (hint : Z) (s : surf).
Hypothesis V : valid_input vs h r keys vals.
Hypothesis B : built fp vs h r keys vals hint s.

Lemma combine_in e : In e (combine keys vals) -> In (fst e) keys.
Proof. destruct e. apply in_combine_l. Qed.

Lemma not_passed k q : ~ near keys k q -> ble q k -> passedb r keys q k = false.
Proof.
  intros N H. destruct (passedb r keys q k) eqn:E; auto. exfalso. apply passedb_iff in E as [[X _]|[_ X]]; [auto|]. eapply blt_irrefl. eapply blt_ble_trans; eauto.
Qed.

(** Where Seek stops, for every suffix length. *)
Theorem seek_exact q it0 : wf_bytes q = true -> iter_for s it0 -> path_ok (ld_height (s_ld s)) keys q ->
  exists it b below rest, it_seek s it0 q = Ok (it, b) /\ combine keys vals = below ++ rest /\
    Forall (fun e => passedb r keys q (fst e) = true) below /\ Forall (fun e => passedb r keys q (fst e) = false) rest /\
    visits s (it_next s) it (map (shown vs keys) rest) /\
    match rest with
    | [] => it_valid it = false /\ b = false
    | e :: post => it_valid it = true /\ Forall (fun x => nearb keys (fst x) q = false /\ blt q (fst x)) post /\
        if nearb keys (fst e) q then verdict r (length (dprefix keys (fst e))) (fst e) q = (if b then Eq else Gt)
        else ble q (fst e) /\ b = stubb (ld_height (s_ld s)) keys q /\ (b = true -> is_prefix q (fst e))
    end.
Proof.
  intros Wq F H. destruct (built_rep fp vs h r keys vals hint s V B) as (cut & SR & W & CO & LO & MF & RT).
  assert (INC : increasing (map fst (combine keys vals))) by (rewrite MF; apply V).
  assert (NI : Forall (ninv (combine keys vals)) (concat (trie (combine keys vals)))) by (apply trie_ninv; auto).
  rewrite (ldr_h _ _ _ _ _ (sr_ld _ _ _ _ _ SR)) in *.
  assert (QT := H). rewrite <- MF in QT. pose proof (path_ok_qt _ _ cut q (dw_linked _ _ _ _ _ SR) RT NI QT) as QT'. clear QT. rename QT' into QT.
  destruct (seek_spec fp (mkcfg vs h r) (trie (combine keys vals)) cut s (combine keys vals) SR RT CO LO INC NI q Wq QT it0 F) as (it & b & E & [(pre & e & post & A & L & S & LD)|(IV & L & EB)]).
  - exists it, b, pre, (e :: post). split; [exact E|]. split; [symmetry; eapply at_kvs; eauto|]. unfold lo, shi, landed, stub in *. rewrite MF in L, S, LD. change (c_realLen (mkcfg vs h r)) with r in *.
    split; [apply Forall_forall; intros x Hx; apply passedb_iff; auto|]. split.
    { constructor.
      - destruct LD as [[N LD]|(N & LD & _)]; [|now apply not_passed]. unfold passedb. rewrite (proj2 (nearb_iff _ _ _) N), LD. now destruct b.
      - apply Forall_forall. intros x Hx. destruct (S x Hx). apply not_passed; auto. now apply blt_ble. }
    pose proof (visits_fwd fp (mkcfg vs h r) (trie (combine keys vals)) cut s (combine keys vals) SR RT LO INC NI post it pre e A) as VF. rewrite MF in VF.
    split; [exact VF|]. split; [eapply at_valid; eauto|]. split; [apply Forall_forall; intros x Hx; destruct (S x Hx); split; auto; now apply nearb_false|].
    destruct LD as [[N LD]|(N & LD & LT & ES)]; [rewrite (proj2 (nearb_iff _ _ _) N); exact LD|rewrite (proj2 (nearb_false _ _ _) N); auto].
  - exists it, b, (combine keys vals), []. split; [exact E|]. split; [now rewrite app_nil_r|]. unfold lo in L. rewrite MF in L. change (c_realLen (mkcfg vs h r)) with r in *.
    split; [apply Forall_forall; intros x Hx; apply passedb_iff; auto|]. split; [constructor|]. split; [constructor; eapply dead_invalid; eauto|split; [eapply dead_invalid; eauto|exact EB]].
Qed.

Lemma keys_wf : Forall (fun k => wf_bytes k = true) keys. Proof. exact (v_byte _ _ _ _ _ V). Qed.

Theorem seek_lower_bound q it0 : wf_bytes q = true -> iter_for s it0 -> seek_ok (ld_height (s_ld s)) r keys q ->
  exists it b below rest, it_seek s it0 q = Ok (it, b) /\ combine keys vals = below ++ rest /\
    Forall (fun e => blt (fst e) q) below /\ visits s (it_next s) it (map (shown vs keys) rest) /\
    match rest with
    | [] => it_valid it = false /\ b = false
    | e :: post => it_valid it = true /\ Forall (fun x => blt q (fst x)) post /\ (ble q (fst e) \/ (b = true /\ undecided r keys (fst e) q)) /\
        (b = true -> undecided r keys (fst e) q \/ is_prefix q (fst e))
    end.
Proof.
  intros Wq F (H & S). destruct (seek_exact q it0 Wq F H) as (it & b & below & rest & E & EK & LB & _ & VS & M). exists it, b, below, rest. split; [exact E|]. split; [exact EK|].
  split. { rewrite Forall_forall in *. intros e He. apply (passed_blt r keys keys_wf); auto; [|apply passedb_iff; auto]. apply combine_in. rewrite EK. apply in_or_app. now left. }
  split; [exact VS|]. destruct rest as [|e post]; [exact M|]. destruct M as (IV & SP & LD). split; [exact IV|]. split; [eapply Forall_impl; [|exact SP]; cbn beta; tauto|].
  assert (Ie : In (fst e) keys) by (apply combine_in; rewrite EK; apply in_or_app; right; now left).
  destruct (nearb keys (fst e) q) eqn:N.
  - apply nearb_iff in N. destruct (near_order r keys keys_wf (fst e) q Ie Wq S N) as (_ & G & U). destruct b; [specialize (U LD); auto|]. split; [left; apply blt_ble; auto|discriminate].
  - destruct LD as (LD & _ & LT). split; [now left|]. intros Eb. right. auto.
Qed.

Theorem seek_stored i k v it0 : nth_error keys i = Some k -> nth_error vals i = Some v -> iter_for s it0 ->
  exists it b, it_seek s it0 k = Ok (it, b) /\ it_valid it = true /\ it_key it = Ok (dprefix keys k) /\ it_value s it = Ok (firstn vs v).
Proof.
  intros Hk Hv F. assert (Ik : In k keys) by (eapply nth_error_In; eauto).
  assert (Wk : wf_bytes k = true). { pose proof (v_byte _ _ _ _ _ V) as WB. rewrite Forall_forall in WB. auto. }
  destruct (seek_lower_bound k it0 Wk F (seek_ok_stored _ r keys k Ik)) as (it & b & below & rest & E & EK & LB & VS & M).
  assert (Ie : In (k, v) (combine keys vals)).
  { eapply combine_nth_In; eauto. }
  exists it, b. split; [exact E|]. rewrite EK in Ie. apply in_app_or in Ie as [Ie|Ie].
  { exfalso. rewrite Forall_forall in LB. apply LB in Ie. now apply blt_irrefl in Ie. }
  destruct rest as [|e post]; [destruct Ie|]. destruct M as (IV & SP & _). split; [exact IV|].
  destruct Ie as [->|Ie]; [|exfalso; rewrite Forall_forall in SP; apply SP in Ie; now apply blt_irrefl in Ie].
  cbn [map shown fst snd] in VS. inversion VS; subst. auto.
Qed.

(** The answer of HasOverlap, for every suffix length and every upper bound. *)
Theorem overlap_exact q stop (ie : bool) : wf_bytes q = true -> wf_bytes stop = true -> path_ok (ld_height (s_ld s)) keys q ->
  hasOverlap s q stop ie = Ok (overlap_answer r (ld_height (s_ld s)) keys q stop ie).
Proof.
  intros Wq Ws H. destruct (built_rep fp vs h r keys vals hint s V B) as (cut & SR & W & CO & LO & MF & RT).
  assert (INC : increasing (map fst (combine keys vals))) by (rewrite MF; apply V).
  assert (NI : Forall (ninv (combine keys vals)) (concat (trie (combine keys vals)))) by (apply trie_ninv; auto).
  assert (EH := ldr_h _ _ _ _ _ (sr_ld _ _ _ _ _ SR)). rewrite EH in *.
  assert (QT := H). rewrite <- MF in QT. pose proof (path_ok_qt _ _ cut q (dw_linked _ _ _ _ _ SR) RT NI QT) as QT'. clear QT. rename QT' into QT.
  assert (HN : ls_height (s_ls s) <> 0).
  { rewrite (lsr_height _ _ _ _ _ _ _ (sr_ls _ _ _ _ _ SR)). destruct (trie (combine keys vals)); [discriminate|cbn; discriminate]. }
  unfold hasOverlap, overlap_answer. apply Nat.eqb_neq in HN. rewrite HN, andb_false_r.
  destruct (seek_spec fp (mkcfg vs h r) (trie (combine keys vals)) cut s (combine keys vals) SR RT CO LO INC NI q Wq QT (newIterator s) (new_iter_for s)) as (it & b & -> & [(pre & e & post & A & L & S & LD)|(IV & L & _)]); cbn [bind].
  - rewrite (at_valid _ _ _ _ _ _ _ _ A). cbn [negb].
    rewrite (compare_at fp (mkcfg vs h r) (trie (combine keys vals)) cut s (combine keys vals) SR RT CO LO INC NI stop Ws _ _ _ _ _ A). cbn [bind]. unfold lo, landed in *. rewrite MF in *. change (c_realLen (mkcfg vs h r)) with r in *.
    assert (FD : find (fun k => negb (passedb r keys q k)) keys = Some (fst e)).
    { assert (EK : keys = map fst pre ++ fst e :: map fst post) by (rewrite <- MF, <- (at_kvs _ _ _ _ _ _ _ _ A), map_app; reflexivity).
      assert (PP : forall k, In k (map fst pre) -> passedb r keys q k = true) by (intros k Hk; apply in_map_iff in Hk as (x & <- & Hx); apply passedb_iff; auto).
      assert (NP : passedb r keys q (fst e) = false).
      { destruct LD as [[N LD]|(N & LD & _)]; [|now apply not_passed]. unfold passedb. rewrite (proj2 (nearb_iff _ _ _) N), LD. now destruct b. }
      assert (X : forall l, (forall k, In k l -> passedb r keys q k = true) -> find (fun k => negb (passedb r keys q k)) (l ++ fst e :: map fst post) = Some (fst e)).
      { induction l as [|k l IH]; intros PL; cbn [app find]; [now rewrite NP|]. rewrite (PL k) by now left. cbn [negb]. apply IH. intros k' Hk. apply PL. now right. }
      specialize (X _ PP). rewrite <- EK in X. exact X. }
    rewrite FD. destruct (compared r cut keys (fst e) stop); destruct ie; reflexivity.
  - rewrite (dead_invalid _ _ _ _ IV). cbn [negb]. unfold lo in L. rewrite MF in L. change (c_realLen (mkcfg vs h r)) with r in *.
    assert (FD : find (fun k => negb (passedb r keys q k)) keys = None).
    { assert (PP : forall k, In k keys -> passedb r keys q k = true). { intros k Hk. rewrite <- MF in Hk. apply in_map_iff in Hk as (x & <- & Hx). apply passedb_iff; auto. }
      assert (X : forall l, (forall k, In k l -> passedb r keys q k = true) -> find (fun k => negb (passedb r keys q k)) l = None).
      { induction l as [|k l IH]; intros PL; cbn [find]; auto. rewrite (PL k) by now left. cbn [negb]. apply IH. intros k' Hk. apply PL. now right. }
      now apply X. }
    now rewrite FD.
Qed.

(** Every key before the one that decides is less than the lower bound. *)
Lemma find_first (f : bytes -> bool) l k : find f l = Some k -> increasing l -> In k l /\ f k = true /\ forall k', In k' l -> blt k' k -> f k' = false.
Proof.
  induction l as [|x l IH]; cbn [find]; [discriminate|]. intros F I. destruct (f x) eqn:E.
  - injection F as <-. split; [now left|]. split; auto. intros k' [<-|Hk] L; [now apply blt_irrefl in L|]. exfalso. eapply blt_irrefl. eapply blt_trans; [|exact L].
    clear -I Hk. revert x I. induction l as [|y l IH]; intros x I; [destruct Hk|]. cbn [increasing] in I. destruct I as [H1 H2]. destruct Hk as [<-|Hk]; auto. eapply blt_trans; [exact H1|]. now apply IH.
  - assert (I' : increasing l) by (destruct l; cbn [increasing] in *; tauto). destruct (IH F I') as (A & C & D). split; [now right|]. split; auto. intros k' [<-|Hk] L; auto.
Qed.
Lemma find_some_ex (f : bytes -> bool) l k : In k l -> f k = true -> exists k', find f l = Some k'.
Proof. intros I F. destruct (find f l) as [k'|] eqn:E; [eauto|]. exfalso. pose proof (find_none f l E k I). congruence. Qed.

Theorem overlap_complete q stop (ie : bool) k : wf_bytes q = true -> wf_bytes stop = true -> seek_ok (ld_height (s_ld s)) r keys q -> suffix_ok r keys stop ->
  In k keys -> ble q k -> (if ie then ble k stop else blt k stop) -> hasOverlap s q stop ie = Ok true.
Proof.
  intros Wq Ws [H S] SO Ik Lk Uk. rewrite overlap_exact by auto. f_equal. unfold overlap_answer.
  assert (NP : passedb r keys q k = false).
  { destruct (passedb r keys q k) eqn:E; auto. exfalso. apply passedb_iff, (passed_blt r keys keys_wf) in E; auto. eapply blt_irrefl. eapply blt_ble_trans; eauto. }
  destruct (find_some_ex (fun k => negb (passedb r keys q k)) keys k Ik) as (k0 & F); [now rewrite NP|]. rewrite F.
  destruct (find_first _ _ _ F) as (I0 & _ & M); [apply V|].
  assert (EK : ble k0 k).
  { unfold ble. intros X. apply bcompare_gt in X. specialize (M k Ik X). now rewrite NP in M. }
  pose proof (compared_order r keys keys_wf (ld_height (s_ld s)) k0 stop I0 Ws SO) as C. destruct (compared r (ld_height (s_ld s)) keys k0 stop); cbn [within]; auto.
  - destruct ie; auto. exfalso. assert (LE : ble stop k0) by (destruct C as [->|[C _]]; [apply ble_refl|now apply is_prefix_ble]). eapply blt_irrefl. eapply ble_blt_trans; [exact LE|]. eapply ble_blt_trans; eauto.
  - exfalso. apply (blt_irrefl stop). eapply blt_ble_trans; [exact C|]. eapply ble_trans; [exact EK|]. destruct ie; auto. now apply blt_ble.
Qed.

Theorem overlap_precise q stop (ie : bool) : wf_bytes q = true -> wf_bytes stop = true -> seek_ok (ld_height (s_ld s)) r keys q -> suffix_ok r keys stop ->
  (forall k, inner_key keys k -> is_prefix stop k -> ld_height (s_ld s) <= levels_above keys k -> length stop = start_depth (ld_height (s_ld s)) keys k -> k = stop) -> hasOverlap s q stop ie = Ok true ->
  exists k, In k keys /\ (ble q k \/ undecided r keys k q) /\ ((if ie then ble k stop else blt k stop) \/ undecided r keys k stop).
Proof.
  intros Wq Ws [H S] SO PF. rewrite overlap_exact by auto. intros E. apply Ok_eq in E. unfold overlap_answer in E.
  destruct (find _ keys) as [k|] eqn:F; [|discriminate]. apply find_some in F as [Ik NP]. apply negb_true_iff in NP. exists k. split; [exact Ik|]. split.
  - unfold passedb in NP. destruct (nearb keys k q) eqn:N.
    + apply nearb_iff in N. destruct (near_order r keys keys_wf k q Ik Wq S N) as (_ & G & U). destruct (verdict _ _ _ _); [right; auto|discriminate|left; apply blt_ble; auto].
    + left. unfold ble. intros X. apply bcompare_gt in X. unfold blt in X. now rewrite X in NP.
  - pose proof (compared_order r keys keys_wf (ld_height (s_ld s)) k stop Ik Ws SO) as C. destruct (compared r (ld_height (s_ld s)) keys k stop); cbn [within] in E; try discriminate.
    + left. destruct ie; auto. now apply blt_ble.
    + destruct ie; [|discriminate]. left. destruct C as [->|(C1 & (k' & I' & P' & N') & C2 & C3)]; [apply ble_refl|]. rewrite (PF k); auto; [apply ble_refl|]. split; auto. exists k'. auto.
    + right. exact C.
Qed.
End Main.
