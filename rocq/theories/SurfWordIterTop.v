(** * SurfWordIterTop: iterators and HasOverlap with uint32 arithmetic, on filters of fewer than
    2^23 keys shorter than 2^16 - 1 bytes. *)
From Verif Require Import Base BitsModel BitsFacts VecModel SurfModel SurfIter SurfIterSpec SurfWord SurfWordIter VecProofs VecProofs2 SurfTrie SurfBuild SurfDense SurfEnc SurfBuildTop SurfSpec SurfTop SurfGet SurfSize SurfMarshalProofs
  SurfAlias SurfAliasProofs SurfWordProofs SurfWordLim SurfWordSpec SurfWordTop SurfWordIterProofs SurfWordIterSpec SurfSafeSpec SurfSafe3 SurfIterPrev3 SurfIterSeek3 SurfIterTop SurfIterMain SurfPrevSpec.

(** The trie is not higher than the longest key. *)
Lemma depth_le D n : nwf n -> Forall (fun e => length (fst e) <= D) (tn_kvs n) -> tn_d n <= D.
Proof.
  intros W F. pose proof (w_ne n W) as NE. destruct (tn_kvs n) as [|e l] eqn:E; [congruence|]. inversion F; subst.
  pose proof (share_length _ _ e (w_share n W)) as X. rewrite E in X. specialize (X (or_introl eq_refl)). lia.
Qed.
Definition keys_le (D : nat) (n : tnode) : Prop := Forall (fun e => length (fst e) <= D) (tn_kvs n).
Lemma child_keys D n c : keys_le D n -> In c (children n) -> keys_le D c.
Proof.
  intros F H. unfold children in H. apply in_map_iff in H as (it & <- & H). apply filter_In in H as (H & _).
  apply Forall_forall. intros e He. cbn in He. unfold keys_le in F. rewrite Forall_forall in F. apply F.
  rewrite <- (items_kvs (tn_d n) (tn_kvs n)). apply in_concat. exists (i_grp it). split; auto. now apply in_map.
Qed.
Lemma child_deeper n c : nwf n -> In c (children n) -> tn_d n < tn_d c.
Proof.
  intros W H. pose proof (w_pd c (children_wf n c W H)) as P. unfold children in H. apply in_map_iff in H as (it & <- & H). apply filter_In in H as (H & _).
  cbn [mkchild mknode tn_pd] in P. rewrite (item_depth n it H) in P. exact P.
Qed.
Lemma levels_le D k : forall F a, small k F -> Forall (keys_le D) F -> Forall (fun n => a <= tn_d n) F -> length (blevels k F) <= S D - a.
Proof.
  induction k as [|k IH]; intros F a SM KL AD; [cbn; lia|]. cbn [blevels]. destruct F as [|n F1] eqn:EF; [cbn; lia|]. rewrite <- EF in SM, KL, AD |- *.
  assert (A : a <= D). { rewrite EF in SM, KL, AD. inversion SM as [|? ? (W & _) _]; subst. inversion KL; subst. inversion AD; subst. pose proof (depth_le D n W ltac:(assumption)). lia. }
  cbn [length]. unfold small in SM. pose proof SM as SM2. rewrite Forall_forall in SM2, KL, AD.
  specialize (IH (flat_map children F) (S a) (small_children _ _ SM)). cut (length (blevels k (flat_map children F)) <= S D - S a); [lia|]. apply IH; apply Forall_forall; intros c Hc;
    apply in_flat_map in Hc as (m & Hm & Hc).
  - eapply child_keys; eauto.
  - pose proof (child_deeper m c (proj1 (SM2 m Hm)) Hc). specialize (AD m Hm). cbn in AD. lia.
Qed.
Lemma all_keys D k : forall F L n, Forall (keys_le D) F -> In L (blevels k F) -> In n L -> keys_le D n.
Proof.
  induction k as [|k IH]; intros F L n KL HL Hn; [destruct HL|]. cbn [blevels] in HL. destruct F as [|m F1] eqn:EF; [destruct HL|]. rewrite <- EF in KL, HL. destruct HL as [<-|HL].
  - rewrite Forall_forall in KL. now apply KL.
  - apply (IH (flat_map children F) L n); auto. apply Forall_forall. intros c Hc. apply in_flat_map in Hc as (x & Hx & Hc). rewrite Forall_forall in KL. eapply child_keys; eauto.
Qed.
Lemma nprefix_le D n : nwf n -> keys_le D n -> length (nprefix n) <= D.
Proof.
  intros W F. unfold nprefix. rewrite firstn_length, skipn_length. unfold keys_le in F. unfold key0. destruct (tn_kvs n) as [|e l]; [cbn; lia|]. inversion F; subst. cbn [hd fst]. lia.
Qed.
Lemma prefix_lt v P D i p : pv_rep v P -> Forall (fun p => length p <= D) P -> getPrefix v i = Ok p -> length p < D + 1.
Proof.
  intros R F E. destruct (Nat.lt_ge_cases i (length P)) as [L|L].
  - rewrite (getPrefix_correct v P i R L) in E. apply OkI in E. subst p. rewrite Forall_forall in F. specialize (F _ (nth_In P [] L)). lia.
  - destruct R as ((pad & R) & _). unfold getPrefix in E. apply bindI in E as (b & EB & E). apply (isSet_bit _ _ _ _ _ R) in EB.
    rewrite app_nth2 in EB by (rewrite map_length; lia). assert (b = false).
    { destruct (nth_in_or_default (i - length (map nonempty P)) (repeat false pad) false) as [X|X]; [apply repeat_spec in X|]; congruence. }
    subst b. rewrite H in E. cbn [negb] in E. apply OkI in E. subst p. cbn. lia.
Qed.
Lemma cntl_row2 (sel : item -> bool) (D : list tnode) : Forall nwf D -> (forall x, sel x = true -> noterm x = true) ->
  let row n := map (fun l => existsb (fun it => sel it && Nat.eqb (i_label it) l) (items n)) (seq 0 256) in
  cntl (flat_map row D) (length (flat_map row D)) <= length (filter sel (flat_map items D)).
Proof.
  intros W Hs row. induction W as [|n D W _ IH]; [cbn; lia|]. cbn [flat_map]. rewrite app_length, cntl_app, filter_app, app_length.
  assert (LR : length (row n) = 256) by (unfold row; now rewrite map_length, seq_length).
  assert (ND : NoDup (map i_label (filter sel (items n)))).
  { apply sorted_lt_NoDup. replace (filter sel (items n)) with (filter sel (filter noterm (items n))).
    - apply sorted_filter. now apply labels_sorted.
    - rewrite filter_filter. apply filter_ext. intros x. destruct (sel x) eqn:Sx; [rewrite (Hs x Sx)|]; auto. apply andb_false_r. }
  assert (cntl (row n) (length (row n)) <= length (filter sel (items n))); [|lia]. rewrite LR. unfold row. rewrite dlab_cnt by auto. apply filter_length_le.
Qed.
Lemma filter_weaker {A} (f g : A -> bool) l : (forall x, f x = true -> g x = true) -> length (filter f l) <= length (filter g l).
Proof. intros W. induction l as [|x l IH]; [auto|]. cbn [filter]. destruct (f x) eqn:E; [rewrite (W x E); cbn; lia|]. destruct (g x); cbn; lia. Qed.

Lemma max_short keys : Forall (fun k : bytes => (N.of_nat (length k) < 65535)%N) keys -> exists D, (N.of_nat D < 65535)%N /\ Forall (fun k : bytes => length k <= D) keys.
Proof.
  induction 1 as [|k keys K _ (D & HD & F)]; [exists 0; split; auto; lia|]. exists (Nat.max (length k) D). split; [lia|].
  constructor; [lia|]. eapply Forall_impl; [|exact F]. cbn. lia.
Qed.

Section Top.
Variables (fp : bytes -> N) (vs h r : nat) (keys vals : list bytes) (hint : Z) (s : surf).
Hypothesis V : valid_input vs h r keys vals.
Hypothesis B : built fp vs h r keys vals hint s.
Hypothesis SM : small_input vs keys.

Lemma built_iter_lim : exists K H, 1 <= K /\ 1 <= H /\ fits32 ((H + 1) * K) /\ denlim K H (s_ld s) /\ splim K H (s_ls s) /\ 0 < length (ls_label (s_ls s)).
Proof.
  destruct (built_lim fp vs h r keys vals hint s V B (si_keys _ _ SM)) as (BL1 & BL2).
  destruct (max_short keys (si_length _ _ SM)) as (D & HD & FD). exists (D + 1), (D + 1). split; [lia|]. split; [lia|].
  destruct (built_rep fp vs h r keys vals hint s V B) as (cut & RP & W & CT & _ & MF & _). pose proof (si_keys _ _ SM) as SK.
  assert (LK : length (combine keys vals) = length keys) by (rewrite <- MF at 2; symmetry; apply map_length).
  pose proof (items_total _ W) as IT. pose proof (nodes_le _ W) as NT. pose proof (leaves_total _ W) as LT. rewrite LK in *.
  assert (FK : Forall (keys_le D) [mknode (combine keys vals) 0]). { constructor; [|constructor]. unfold keys_le. cbn. rewrite <- MF, Forall_map in FD. exact FD. }
  assert (SMN : small (length (combine keys vals)) [mknode (combine keys vals) 0]) by (constructor; [split; auto|constructor]).
  assert (HN : length (trie (combine keys vals)) <= D + 1).
  { unfold trie. pose proof (levels_le D _ _ 0 SMN FK) as X. rewrite Nat.add_1_r. rewrite Nat.sub_0_r in X. apply X. repeat constructor. lia. }
  assert (PN : Forall (fun n => length (nprefix n) <= D) (concat (trie (combine keys vals)))).
  { apply Forall_forall. intros n Hn. apply in_concat in Hn as (L & HL & Hn). apply nprefix_le; [eapply blevels_in; eauto|eapply all_keys; eauto]. }
  destruct RP as (HL & LI & (root & HR) & WF & LD & LS). set (NSS := trie (combine keys vals)) in *.
  assert (IC : length (filter hasc (flat_map items (concat NSS))) + 1 = length (concat NSS)).
  { pose proof (items_count (concat NSS)) as X. rewrite flat_map_children, map_length in X. lia. }
  assert (EC : concat NSS = concat (firstn cut NSS) ++ concat (skipn cut NSS)) by (rewrite <- concat_app, firstn_skipn; reflexivity).
  set (DN := concat (firstn cut NSS)) in *. set (SN := concat (skipn cut NSS)) in *.
  rewrite EC in WF, NT, PN, IC. rewrite flat_map_app, filter_app, !app_length in IC. rewrite app_length in NT. apply Forall_app in WF as (WD & WS). apply Forall_app in PN as (PD & PS). clear EC.
  split; [|split; [|split]].
  - unfold fits32. nia.
  - constructor.
    + exact BL1.
    + exists (flat_map (fun n => dlab (items n)) DN). split; [apply (ldr_label _ _ _ _ _ LD)|]. rewrite (flat_256 dlab _ dlab_length). split.
      * replace (length DN * 256) with (length DN * 4 * 64) by lia. apply Nat.mod_mul. lia.
      * unfold lim31. lia.
    + intros pos x E. apply (rank_count rankDenseBlockSize _ _ _ _ ltac:(unfold rankDenseBlockSize; lia) eq_refl (ldr_hasc _ _ _ _ _ LD)) in E.
      pose proof (cntl_top (flat_map (fun n => dhas (items n)) DN) (pos + 1)) as T.
      pose proof (cntl_row2 (fun x => noterm x && hasc x) DN WD ltac:(intros y Hy; now apply andb_prop in Hy)) as C. cbv zeta in C.
      pose proof (filter_weaker (fun x => noterm x && hasc x) hasc (flat_map items DN) ltac:(intros y Hy; now apply andb_prop in Hy)) as Q.
      match type of C with ?X <= _ => change X with (cntl (flat_map (fun n => dhas (items n)) DN) (length (flat_map (fun n => dhas (items n)) DN))) in C end. lia.
    + intros n p E. eapply prefix_lt; [apply (ldr_pre _ _ _ _ _ LD)| |exact E]. rewrite Forall_map. exact PD.
    + rewrite (ldr_h _ _ _ _ _ LD). lia.
  - constructor.
    + exact BL2.
    + intros n p E. eapply prefix_lt; [apply (lsr_pre _ _ _ _ _ _ _ LS)| |exact E]. rewrite Forall_map. exact PS.
    + unfold ls_sparseLevels. rewrite (lsr_height _ _ _ _ _ _ _ LS). lia.
    + rewrite (lsr_height _ _ _ _ _ _ _ LS), (lsr_start _ _ _ _ _ _ _ LS). lia.
    + rewrite (lsr_height _ _ _ _ _ _ _ LS). unfold fits32. lia.
  - rewrite (lsr_label _ _ _ _ _ _ _ LS), app_length. cbn. lia.
Qed.
Lemma built_vals : fits32 (length (vv_bytes (ld_values (s_ld s)))) /\ fits32 (length (vv_bytes (ls_values (s_ls s)))).
Proof.
  pose proof (si_values _ _ SM) as FV.
  destruct (built_rep fp vs h r keys vals hint s V B) as (cut & RP & W & _ & LO & MF & _). destruct RP as (_ & _ & _ & _ & LD & LS).
  pose proof (leaves_total _ W) as LT. assert (LK : length (combine keys vals) = length keys) by (rewrite <- MF at 2; symmetry; apply map_length). rewrite LK in LT.
  set (NSS := trie (combine keys vals)) in *. assert (EC : concat NSS = concat (firstn cut NSS) ++ concat (skipn cut NSS)) by (rewrite <- concat_app, firstn_skipn; reflexivity).
  rewrite EC, leaves_app in LT, LO. rewrite app_length in LT. apply Forall_app in LO as (LO1 & LO2).
  assert (VL : forall its, Forall (leaf_ok (mkcfg vs h r)) its -> length (flat_map (ivalue (mkcfg vs h r)) its) = length its * vs) by (intros its; apply ivalues_length).
  split.
  - destruct (ldr_val _ _ _ _ _ LD) as (_ & ->). rewrite VL by auto. eapply fits_le; [|exact FV]. nia.
  - destruct (lsr_val _ _ _ _ _ _ _ LS) as (_ & ->). rewrite VL by auto. eapply fits_le; [|exact FV]. nia.
Qed.

Lemma bytes_lt q : wf_bytes q = true -> Forall (fun b => b < 256) q.
Proof. intros W. apply Forall_forall. intros b Hb. unfold wf_bytes in W. rewrite forallb_forall in W. specialize (W b Hb). now apply Nat.ltb_lt. Qed.

(** The invariant, with its bounds hidden. *)
Definition inv32 (it : iter) : Prop := exists K H, 1 <= K /\ 1 <= H /\ fits32 ((H + 1) * K) /\ denlim K H (s_ld s) /\ splim K H (s_ls s) /\ iinv K H s it.
Lemma inv_new : newIterator32 s = newIterator s /\ inv32 (newIterator s).
Proof.
  destruct built_iter_lim as (K & H & K1 & H1 & HK & LD & LS & NL). split; [eapply new_sim; eauto|]. exists K, H. do 5 (split; [assumption|]). eapply new_inv; eauto.
Qed.
Lemma inv_call it c x : inv32 it -> (match c with ISeek q => query_ok q | _ => True end) -> call_out s it c = Ok x -> call_out32 s it c = Ok x /\ inv32 (fst x).
Proof.
  intros (K & H & K1 & H1 & HK & LD & LS & I) Q E.
  destruct c as [q| | | |]; cbn [call_out call_out32 icall_run] in *.
  - destruct Q as (Q1 & Q2). apply (it_seek_sim K H K1 H1 HK s LD LS) in E as (E & I2); auto using bytes_lt. split; [exact E|]. exists K, H. auto 10.
  - apply bindI in E as (it2 & E1 & E). apply (it_first_sim K H K1 H1 HK s LD LS) in E1 as (-> & I2); auto. cbn [bind]. split; [exact E|]. apply OkI in E. subst x. exists K, H. auto 10.
  - apply bindI in E as (it2 & E1 & E). apply (it_last_sim K H K1 H1 HK s LD LS) in E1 as (-> & I2); auto. cbn [bind]. split; [exact E|]. apply OkI in E. subst x. exists K, H. auto 10.
  - apply bindI in E as (it2 & E1 & E). apply (it_next_sim K H K1 H1 HK s LD LS) in E1 as (-> & I2); auto. cbn [bind]. split; [exact E|]. apply OkI in E. subst x. exists K, H. auto 10.
  - apply bindI in E as (it2 & E1 & E). apply (it_prev_sim K H K1 H1 HK s LD LS) in E1 as (-> & I2); auto. cbn [bind]. split; [exact E|]. apply OkI in E. subst x. exists K, H. auto 10.
Qed.
Lemma inv_value it v : inv32 it -> it_value s it = Ok v -> it_value32 s it = Ok v.
Proof. intros (K & H & K1 & H1 & HK & LD & LS & I) E. destruct built_vals. eapply it_value_sim; eauto. Qed.
Lemma inv_look it x : inv32 it -> look s it = Ok x -> look32 s it = Ok x.
Proof.
  intros I E. unfold look, look32 in *. destruct (it_valid it); auto. apply bindI in E as (k & -> & E). cbn [bind]. apply bindI in E as (v & E1 & E). apply inv_value in E1; auto. rewrite E1. exact E.
Qed.
Theorem trace_same_from cs : forall it out, inv32 it -> queries_ok cs -> trace s it cs = Ok out -> trace32 s it cs = Ok out.
Proof.
  induction cs as [|c cs IH]; intros it out I Q E; cbn [trace trace32] in *; auto. inversion Q as [|? ? Q1 Q2]; subst.
  apply bindI in E as ((it2 & b) & E1 & E). apply inv_call in E1 as (-> & I2); auto. cbn [bind fst] in *. apply bindI in E as (o & E1 & E). apply inv_look in E1; auto. rewrite E1. cbn [bind].
  apply bindI in E as (l & E2 & E). apply IH in E2; auto. rewrite E2. exact E.
Qed.
Theorem trace_same cs out : queries_ok cs -> trace s (newIterator s) cs = Ok out -> trace32 s (newIterator32 s) cs = Ok out.
Proof. intros Q E. destruct inv_new as (-> & I). now apply trace_same_from. Qed.

Theorem overlap_same start stop b : query_ok start -> (N.of_nat (length stop) < 536870912)%N -> hasOverlap32 s start stop b = hasOverlap s start stop b.
Proof.
  intros (Q1 & Q2) Q3. destruct built_iter_lim as (K & H & K1 & H1 & HK & LD & LS & NL). destruct (overlap_total fp vs h r keys vals hint s V B start stop b Q1) as (x & E).
  rewrite E. apply (overlap_sim K H K1 H1 HK s LD LS); auto using bytes_lt.
Qed.

Lemma visits_same step step32 : (forall it it', inv32 it -> step it = Ok it' -> step32 it = Ok it' /\ inv32 it') ->
  forall it l, visits s step it l -> inv32 it -> visits32 s step32 it l.
Proof.
  intros ST it l VS. induction VS as [it X|it k v it' l X1 X2 X3 X4 VS IH]; intros I; [now constructor|]. destruct (ST it it' I X4) as (Y1 & Y2).
  econstructor; eauto using inv_value.
Qed.
Lemma inv_next it it' : inv32 it -> it_next s it = Ok it' -> it_next32 s it = Ok it' /\ inv32 it'.
Proof.
  intros I E. destruct (inv_call it INext (it', false) I Logic.I) as (E2 & I2); [cbn; now rewrite E|]. split; auto. cbn in E2. apply bindI in E2 as (j & -> & E2). apply OkI in E2. congruence.
Qed.
Lemma inv_prev it it' : inv32 it -> it_prev s it = Ok it' -> it_prev32 s it = Ok it' /\ inv32 it'.
Proof.
  intros I E. destruct (inv_call it IPrev (it', false) I Logic.I) as (E2 & I2); [cbn; now rewrite E|]. split; auto. cbn in E2. apply bindI in E2 as (j & -> & E2). apply OkI in E2. congruence.
Qed.
End Top.

(** The same for what Build with 32-bit counters returns. *)
Section Top32.
Variables (fp : bytes -> N) (vs h r : nat) (keys vals : list bytes) (hint : Z) (s : surf).
Hypothesis V : valid_input vs h r keys vals.
Hypothesis SM : small_input vs keys.
Hypothesis B32 : built32 fp vs h r keys vals hint s.

Lemma built_both : built fp vs h r keys vals hint s.
Proof.
  apply built32_iff in B32; auto; [apply SM| |apply SM]. eapply Forall_impl; [|apply SM]. unfold shortkey. intros k Hk. cbv beta in Hk. lia.
Qed.
Theorem trace32_same cs out : queries_ok cs -> trace s (newIterator s) cs = Ok out -> trace32 s (newIterator32 s) cs = Ok out.
Proof. apply (trace_same fp vs h r keys vals hint s V built_both SM). Qed.
Theorem overlap32_same start stop b : query_ok start -> (N.of_nat (length stop) < 536870912)%N -> hasOverlap32 s start stop b = hasOverlap s start stop b.
Proof. apply (overlap_same fp vs h r keys vals hint s V built_both SM). Qed.
Theorem forward32 : 0 < ld_height (s_ld s) ->
  exists it, it_seekToFirst32 s (newIterator32 s) = Ok it /\
    ((prefix_of_all keys /\ visits32 s (it_next32 s) it (map (shown vs keys) (tl (combine keys vals)))) \/
     (~ prefix_of_all keys /\ visits32 s (it_next32 s) it (map (shown vs keys) (combine keys vals)))).
Proof.
  intros HD. destruct (inv_new fp vs h r keys vals hint s V built_both SM) as (-> & I).
  destruct (forward_all fp vs h r keys vals hint s V built_both (newIterator s) (new_iter_for s) HD) as (it & E & C).
  destruct (inv_call s (newIterator s) IFirst (it, false) I Logic.I) as (E2 & I2); [cbn; now rewrite E|]. cbn in E2. apply bindI in E2 as (j & -> & E2). apply OkI in E2. assert (j = it) by congruence. subst j.
  exists it. split; auto. pose proof (visits_same fp vs h r keys vals hint s V built_both SM (it_next s) (it_next32 s) (inv_next s)) as VS.
  destruct C as [(P & X)|(P & X)]; [left|right]; split; auto.
Qed.
Theorem backward32 : 0 < ld_height (s_ld s) ->
  exists it m, it_seekToLast32 s (newIterator32 s) = Ok it /\ m < length keys /\ prev_stops (ld_height (s_ld s)) keys m /\
    (forall i, m < i -> i < length keys -> ~ prev_stops (ld_height (s_ld s)) keys i) /\
    visits32 s (it_prev32 s) it (map (shown vs keys) (rev (skipn m (combine keys vals)))).
Proof.
  intros HD. destruct (inv_new fp vs h r keys vals hint s V built_both SM) as (-> & I).
  destruct (backward_all fp vs h r keys vals hint s V built_both (newIterator s) (new_iter_for s) HD) as (it & m & E & C1 & C2 & C3 & C4).
  destruct (inv_call s (newIterator s) ILast (it, false) I Logic.I) as (E2 & I2); [cbn; now rewrite E|]. cbn in E2. apply bindI in E2 as (j & -> & E2). apply OkI in E2. assert (j = it) by congruence. subst j.
  exists it, m. repeat (split; auto). apply (visits_same fp vs h r keys vals hint s V built_both SM (it_prev s) (it_prev32 s) (inv_prev s)); auto.
Qed.
Theorem calls32_return cs : allowed (ld_height (s_ld s)) true cs -> queries_ok cs -> (ld_height (s_ld s) = 0 \/ ~ prefix_of_all keys) ->
  exists out, trace32 s (newIterator32 s) cs = Ok out.
Proof.
  intros A Q NB. cut (exists out, trace s (newIterator s) cs = Ok out). { intros (out & E). exists out. now apply trace32_same. }
  pose proof (calls_return fp vs h r keys vals hint s V built_both cs A) as R. clear A Q. revert R. generalize (newIterator s) as it. induction cs as [|c cs IH]; intros it R; [exists []; reflexivity|].
  cbn [returns trace] in *. destruct R as (_ & [(BC & _)|(_ & it2 & E & R)]).
  { exfalso. destruct BC as (_ & HD & _ & L2 & k & _ & Hk & Hp). destruct NB as [NB|NB]; [lia|]. apply NB. split; auto. exists k. auto. }
  assert (X : exists b, call_out s it c = Ok (it2, b)).
  { destruct c as [q| | | |]; cbn [call_out icall_run] in *; try (exists false; rewrite E; reflexivity).
    apply bindI in E as ((i & b) & E & E1). apply OkI in E1. subst i. exists b. exact E. }
  destruct X as (b & ->). cbn [bind]. destruct (IH it2 R) as (l & E2). rewrite E2.
  assert (X : exists o, look s it2 = Ok o).
  { unfold look. destruct (it_valid it2) eqn:EV; [|eauto]. destruct cs; cbn [returns] in R; destruct (proj1 R EV) as (k & v & -> & ->); cbn [bind]; eauto. }
  destruct X as (o & ->). cbn [bind]. eauto.
Qed.
Theorem overlap32_complete start stop (includeEnd : bool) k : query_ok start -> query_ok stop ->
  seek_ok (ld_height (s_ld s)) r keys start -> suffix_ok r keys stop -> In k keys -> ble start k -> (if includeEnd then ble k stop else blt k stop) ->
  hasOverlap32 s start stop includeEnd = Ok true.
Proof.
  intros Q1 Q2 S1 S2 Hk H1 H2. rewrite overlap32_same by (auto; apply Q2). eapply overlap_complete; eauto using built_both; [apply Q1|apply Q2].
Qed.
End Top32.
