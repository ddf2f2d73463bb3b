(** * The iteration theorems in terms of the stored keys. *)
From Coq Require Import Sorted.
From Verif Require Import Base BitsModel BitsFacts VecModel VecProofs VecProofs2 SurfModel SurfTrie SurfSuffix SurfBuild SurfDense SurfEnc SurfBuildTop SurfGet SurfGet2 SurfSpec SurfWalk SurfTop SurfIter SurfIterSpec SurfIterPath SurfIterDense SurfIterSparse SurfIterTop.

Lemma in_map_fst (kvs : list kv) k : In k (map fst kvs) -> exists v, In (k, v) kvs.
Proof. intros H. apply in_map_iff in H as ([k' v] & <- & H). eauto. Qed.

Lemma no_term_root kvs : nwf (mknode kvs 0) -> ~ prefix_of_all (map fst kvs) -> forall x, In x (items (mknode kvs 0)) -> i_term x = false.
Proof.
  intros W NP x I. destruct (i_term x) eqn:T; auto. exfalso. destruct (item_term _ x W I T) as (e & r & EK & G & FE & NE & _). apply NP. split.
  - rewrite map_length. change kvs with (tn_kvs (mknode kvs 0)). rewrite EK. destruct r; [congruence|cbn; lia].
  - exists (fst e). split. + apply in_map. change kvs with (tn_kvs (mknode kvs 0)). rewrite EK. now left.
    + intros k' H. destruct (in_map_fst _ _ H) as (v & Hv). rewrite FE. apply (ndpath_prefix (mknode kvs 0) (k', v) W Hv).
Qed.

Lemma firstn_nth_prefix d (k : bytes) x : d < length k -> is_prefix (firstn d k ++ [nth d k x]) k.
Proof.
  intros H. exists (skipn (S d) k). rewrite <- app_assoc. cbn [app]. rewrite <- (firstn_skipn d k) at 1. f_equal.
  revert k H. induction d as [|d IH]; intros [|a k] H; cbn in H; try lia; [reflexivity|]. cbn [skipn nth]. apply IH. lia.
Qed.

Lemma item_ex n x : In x (items n) -> nwf n -> exists e, In e (i_grp x) /\ In e (tn_kvs n).
Proof.
  intros I W. pose proof (item_grp_ne _ _ I) as NE. destruct (i_grp x) as [|e g] eqn:G; [congruence|]. exists e. split; [now left|].
  rewrite <- (items_kvs (tn_d n) (tn_kvs n)). fold (items n). apply in_concat. exists (i_grp x). split; [now apply in_map|]. rewrite G. now left.
Qed.

Lemma label_prefix n x e : nwf n -> In x (items n) -> i_term x = false -> In e (i_grp x) -> is_prefix (ndpath n ++ [i_label x]) (fst e).
Proof.
  intros W I T He. destruct (item_noterm n x e W I T He) as (H & L & <-). pose proof (ndpath_prefix n e W H) as P.
  assert (ndpath n = firstn (tn_d n) (fst e)) as ->. { destruct P as (z & Ez). rewrite Ez, <- (ndpath_length n W), firstn_app, firstn_all, Nat.sub_diag. cbn [firstn]. now rewrite app_nil_r. }
  now apply firstn_nth_prefix.
Qed.

Lemma root_ok_keys kvs : nwf (mknode kvs 0) -> ~ prefix_of_all (map fst kvs) -> ~ zero_branch (map fst kvs) -> root_ok kvs.
Proof.
  intros W NP NZ. pose proof (no_term_root kvs W NP) as NT. set (n := mknode kvs 0) in *.
  destruct (items n) as [|x [|y l]] eqn:EI; [right; unfold n in EI; rewrite EI; constructor|left; exists x; split; [exact EI|apply NT; now left]|].
  right. fold n. rewrite Forall_forall. intros a Ha. rewrite EI in Ha. split; [now apply NT|].
  destruct (Nat.eq_dec (i_label a) 0) as [L0|]; [|lia]. exfalso. apply NZ.
  (* an item other than [a] *)
  assert (ND : forall A B, items n = A ++ a :: B -> forall z, In z (A ++ B) -> i_label z <> i_label a).
  { intros A B E z Hz EL. destruct (items_order n A a B W E (NT a Ha)) as [OA OB]. apply in_app_or in Hz as [Hz|Hz].
    - assert (Tz : i_term z = false) by (apply NT; rewrite <- EI, E; apply in_or_app; now left). pose proof (OA z Hz Tz). lia.
    - pose proof (OB z Hz) as [_ OZ]. lia. }
  assert (exists z, In z (items n) /\ i_label z <> i_label a) as (z & Hz & Lz).
  { rewrite <- EI in Ha. destruct (in_split _ _ Ha) as (A & B & E). destruct (A ++ B) as [|z r] eqn:EAB.
    - apply app_eq_nil in EAB as [-> ->]. rewrite EI in E. discriminate.
    - exists z. assert (Hz : In z (A ++ B)) by (rewrite EAB; now left). split; [|eapply ND; eauto]. rewrite E. apply in_app_or in Hz. apply in_or_app. cbn [In]. tauto. }
  rewrite <- EI in Ha. destruct (item_ex n a Ha W) as (e & He & He'). destruct (item_ex n z Hz W) as (g & Hg & Hg').
  exists (ndpath n). split; [|split].
  - intros k Hk. destruct (in_map_fst _ _ Hk) as (v & Hv). apply (ndpath_prefix n (k, v) W Hv).
  - exists (fst e). split; [now apply in_map|]. rewrite <- L0. apply label_prefix; auto. apply NT. now rewrite <- EI.
  - exists (fst g). split; [now apply in_map|]. intros P0.
    assert (Pz : is_prefix (ndpath n ++ [i_label z]) (fst g)) by (apply label_prefix; auto; apply NT; now rewrite <- EI).
    destruct P0 as (u & Eu), Pz as (w & Ew). rewrite Eu, <- !app_assoc in Ew. apply app_inv_head in Ew. cbn in Ew. inversion Ew. lia.
Qed.

Section Main.
Variables (fp : bytes -> N) (vs h r : nat) (keys vals : list bytes) (hint : Z) (s : surf).
Hypothesis V : valid_input vs h r keys vals.
Hypothesis B : built fp vs h r keys vals hint s.

Lemma new_iter_for : iter_for s (newIterator s).
Proof. constructor; cbn; apply repeat_length. Qed.

Theorem iterate_forward it0 : iter_for s it0 -> 0 < ld_height (s_ld s) -> ~ prefix_of_all keys ->
  exists it, it_seekToFirst s it0 = Ok it /\ visits s (it_next s) it (map (shown vs keys) (combine keys vals)).
Proof.
  intros F H0 NP. destruct (built_rep fp vs h r keys vals hint s V B) as (cut & SR & W & CO & LO & MF & RT).
  assert (INC : increasing (map fst (combine keys vals))) by (rewrite MF; apply V).
  assert (NI : Forall (ninv (combine keys vals)) (concat (trie (combine keys vals)))) by (apply trie_ninv; auto).
  rewrite (ldr_h _ _ _ _ _ (sr_ld _ _ _ _ _ SR)) in H0. rewrite <- MF in NP.
  pose proof (forward fp (mkcfg vs h r) (trie (combine keys vals)) cut s (combine keys vals) SR RT LO INC NI it0 F H0 (no_term_root _ W NP)) as X.
  rewrite MF in X. exact X.
Qed.

Theorem iterate_backward it0 : iter_for s it0 -> 0 < ld_height (s_ld s) -> ~ prefix_of_all keys -> ~ zero_branch keys ->
  exists it, it_seekToLast s it0 = Ok it /\ visits s (it_prev s) it (map (shown vs keys) (rev (combine keys vals))).
Proof.
  intros F H0 NP NZ. destruct (built_rep fp vs h r keys vals hint s V B) as (cut & SR & W & CO & LO & MF & RT).
  assert (INC : increasing (map fst (combine keys vals))) by (rewrite MF; apply V).
  assert (NI : Forall (ninv (combine keys vals)) (concat (trie (combine keys vals)))) by (apply trie_ninv; auto).
  rewrite (ldr_h _ _ _ _ _ (sr_ld _ _ _ _ _ SR)) in H0. rewrite <- MF in NP, NZ.
  pose proof (backward fp (mkcfg vs h r) (trie (combine keys vals)) cut s (combine keys vals) SR RT LO INC NI (root_ok_keys _ W NP NZ) it0 F H0) as X.
  rewrite MF in X. exact X.
Qed.
End Main.
