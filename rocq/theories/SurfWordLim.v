(** * SurfWordLim: in a filter of fewer than 2^23 keys the counters of Get stay far below 2^32. *)
From Verif Require Import Base BitsModel BitsFacts VecModel SurfModel SurfWord VecProofs VecProofs2 SurfTrie SurfBuild SurfDense SurfEnc SurfBuildTop SurfSpec SurfTop SurfGet SurfSize SurfMarshalProofs SurfAlias SurfAliasProofs SurfWordProofs.

Lemma filter_length_le {A} (f : A -> bool) l : length (filter f l) <= length l.
Proof. induction l as [|x l IH]; cbn; auto. destruct (f x); cbn; lia. Qed.
Lemma cntl_row (sel : item -> bool) (D : list tnode) : Forall nwf D -> (forall x, sel x = true -> noterm x = true) ->
  let row n := map (fun l => existsb (fun it => sel it && Nat.eqb (i_label it) l) (items n)) (seq 0 256) in
  cntl (flat_map row D) (length (flat_map row D)) <= length (flat_map items D).
Proof.
  intros W Hs row. induction W as [|n D W _ IH]; [cbn; lia|]. cbn [flat_map]. rewrite app_length, cntl_app, app_length.
  assert (LR : length (row n) = 256) by (unfold row; now rewrite map_length, seq_length).
  assert (ND : NoDup (map i_label (filter sel (items n)))).
  { apply sorted_lt_NoDup. replace (filter sel (items n)) with (filter sel (filter noterm (items n))).
    - apply sorted_filter. now apply labels_sorted.
    - rewrite filter_filter. apply filter_ext. intros x. destruct (sel x) eqn:Sx; [rewrite (Hs x Sx)|]; auto. apply andb_false_r. }
  assert (cntl (row n) (length (row n)) <= length (items n)); [|lia]. rewrite LR. unfold row. rewrite dlab_cnt by auto.
  etransitivity; [apply filter_length_le|apply filter_length_le].
Qed.
Lemma cntl_pad B pad n : cntl (B ++ repeat false pad) n <= length B.
Proof.
  destruct (Nat.le_ge_cases n (length B)) as [L|L]; [rewrite cntl_app_lt by auto; apply cntl_len|]. replace n with (length B + (n - length B)) by lia.
  rewrite cntl_app. assert (cntl (repeat false pad) (n - length B) = 0) as ->; [|pose proof (cntl_len B (length B)); lia].
  unfold cntl. apply cnt_false. intros i _. destruct (nth_in_or_default i (repeat false pad) false) as [X|X]; auto. now apply repeat_spec in X.
Qed.

Lemma sx_lim fp c xv its : cfg_ok c -> sx_rep fp c xv its -> xvlim xv.
Proof.
  intros (_ & CL) ((T1 & T2) & X). unfold xvlim. destruct (suffixType_eqb (c_type c) NoneSuffix) eqn:E.
  - rewrite T2 by (destruct (c_type c); try discriminate; reflexivity). cbn. lia.
  - destruct X as (-> & -> & _); [intros Q; rewrite Q in E; discriminate|]. exact CL.
Qed.
Lemma pv_lim v P : pv_rep v P -> (N.of_nat (length P) <= 16777216)%N -> pvlim v.
Proof.
  intros ((pad & R) & _ & D & F) L. split.
  - exists (map nonempty P ++ repeat false pad). split; auto. pose proof (cntl_pad (map nonempty P) pad (length (map nonempty P ++ repeat false pad))) as C.
    rewrite map_length in C. fit.
  - rewrite D, concat_filter_nonempty. exact F.
Qed.

Section Lim.
Variables (fp : bytes -> N) (vs h r : nat) (keys vals : list bytes) (hint : Z) (s : surf).
Hypothesis V : valid_input vs h r keys vals.
Hypothesis B : built fp vs h r keys vals hint s.
Hypothesis SM : (N.of_nat (length keys) < 8388608)%N.

Theorem built_lim : ldlim (s_ld s) /\ lslim (s_ls s).
Proof.
  destruct (built_rep fp vs h r keys vals hint s V B) as (cut & RP & W & CT & _ & MF & _).
  assert (LK : length (combine keys vals) = length keys) by (rewrite <- MF at 2; symmetry; apply map_length).
  pose proof (items_total _ W) as IT. pose proof (nodes_le _ W) as NT. rewrite LK in *.
  destruct RP as (HL & LI & (root & HR) & WF & LD & LS). set (NSS := trie (combine keys vals)) in *.
  assert (EC : concat NSS = concat (firstn cut NSS) ++ concat (skipn cut NSS)) by (rewrite <- concat_app, firstn_skipn; reflexivity).
  set (DN := concat (firstn cut NSS)) in *. set (SN := concat (skipn cut NSS)) in *.
  rewrite EC in WF, IT, NT. rewrite flat_map_app in IT. rewrite !app_length in IT. rewrite app_length in NT. apply Forall_app in WF as (WD & WS). clear EC.
  assert (SNE : 0 < length (flat_map items SN)).
  { destruct (skipn cut NSS) as [|L R] eqn:ES; [apply (f_equal (@length _)) in ES; rewrite skipn_length in ES; cbn in ES; lia|].
    assert (LN : L <> []).
    { apply (blevels_ne (length (combine keys vals)) [mknode (combine keys vals) 0]). change (In L NSS). rewrite <- (firstn_skipn cut NSS), ES. apply in_or_app. right. left. auto. }
    unfold SN in *. cbn [concat] in *. destruct L as [|n L]; [congruence|]. cbn [app flat_map] in *. inversion WS; subst. rewrite app_length. pose proof (items_pos n H1). lia. }
  split.
  - constructor.
    + exists (flat_map (fun n => dlab (items n)) DN). split; [apply LD|]. pose proof (cntl_row noterm DN WD ltac:(auto)) as C. cbv zeta in C.
      change (lim (cntl (flat_map (fun n => map (fun l => existsb (fun it => noterm it && Nat.eqb (i_label it) l) (items n)) (seq 0 256)) DN) (length (flat_map (fun n => map (fun l => existsb (fun it => noterm it && Nat.eqb (i_label it) l) (items n)) (seq 0 256)) DN)))). fit.
    + pose proof (ldr_label _ _ _ _ _ LD) as ((_ & L & _) & _). rewrite L, (flat_256 dlab _ dlab_length). unfold numWords.
      replace (length DN * 256) with (length DN * 4 * 64) by lia. rewrite Nat.div_mul, Nat.mod_mul by lia. cbn [Nat.eqb]. fit.
    + exists (flat_map (fun n => dhas (items n)) DN). split; [apply LD|].
      pose proof (cntl_row (fun x => noterm x && hasc x) DN WD ltac:(intros x Hx; now apply andb_prop in Hx)) as C. cbv zeta in C.
      match type of C with cntl ?X _ <= _ => change (lim (cntl X (length X))) end. fit.
    + destruct (ldr_isp _ _ _ _ _ LD) as (pad & R). eexists. split; [exact R|]. pose proof (cntl_pad (map nterm DN) pad (length (map nterm DN ++ repeat false pad))) as C.
      rewrite map_length in C. fit.
    + eapply sx_lim; [exact CT|apply LD].
    + eapply pv_lim; [apply LD|]. rewrite map_length. lia.
  - constructor.
    + eexists. split; [apply LS|]. pose proof (cntl_len (map hasc (flat_map items SN)) (length (map hasc (flat_map items SN)))) as C. rewrite map_length in C at 2. fit.
    + exists (flat_map loudsb SN). split; [apply LS|]. rewrite loudsb_length by auto. rewrite (lsr_label _ _ _ _ _ _ _ LS), app_length, map_length. cbn [length].
      split; [auto|]. split; [fit|lia].
    + rewrite (lsr_label _ _ _ _ _ _ _ LS), app_length, map_length. cbn [length]. fit.
    + rewrite (lsr_dn _ _ _ _ _ _ _ LS). fit.
    + rewrite (lsr_dc _ _ _ _ _ _ _ LS). pose proof (filter_length_le hasc (flat_map items DN)). fit.
    + eapply sx_lim; [exact CT|apply LS].
    + eapply pv_lim; [apply LS|]. rewrite map_length. lia.
Qed.
End Lim.
