(** * SeekToFirst and SeekToLast on a filter without dense levels. *)
From Coq Require Import Sorted.
From Verif Require Import Base BitsModel BitsFacts VecModel VecProofs VecProofs2 SurfModel SurfTrie SurfSuffix SurfBuild SurfDense SurfEnc SurfBuildTop SurfGet SurfGet2 SurfSpec SurfWalk SurfTop SurfSuffix3 SurfIter SurfIterSpec SurfIterPath SurfIterDense SurfIterSparse SurfIterTop SurfIterMain SurfPrevSpec SurfIterPrev3.

(** Moving down does not depend on the key and the prefix lengths kept so far. *)
Definition sim (a b : sparseIter) : Prop :=
  p_level a = p_level b /\ p_pos a = p_pos b /\ length (p_node a) = length (p_node b) /\ length (p_plen a) = length (p_plen b).
Lemma bind_ok {A B} (e : res A) (f : A -> res B) y : bind e f = Ok y -> exists x, e = Ok x /\ f x = Ok y.
Proof. destruct e; cbn [bind]; intros H; try discriminate; eauto. Qed.
Lemma upd_ok_len {A} (l : list A) i x l' : upd l i x = Ok l' -> i < length l /\ length l' = length l.
Proof.
  intros H. assert (L : i < length l).
  { destruct (Nat.lt_ge_cases i (length l)) as [|G]; auto. exfalso. unfold upd in H. destruct (Nat.ltb_spec i (length l)); [lia|discriminate]. }
  split; auto. rewrite upd_in in H by exact L. apply Ok_eq in H. subst. apply set_nth_len.
Qed.
Lemma append_sim ls a b label pos n a' : sim a b -> p_append ls a label pos n = Ok a' -> exists b', p_append ls b label pos n = Ok b' /\ sim a' b'.
Proof.
  intros (S1 & S2 & S3 & S4) H. unfold p_append in *. apply bind_ok in H as (pid & E1 & H). apply bind_ok in H as (px & E2 & H). apply bind_ok in H as (ps & E3 & H).
  apply bind_ok in H as (bs & E4 & H). apply bind_ok in H as (pl & E5 & H). apply bind_ok in H as (ns & E6 & H). apply Ok_eq in H. subst a'.
  rewrite E1. cbn [bind]. rewrite E2. cbn [bind]. rewrite <- S1, <- S2, E3. cbn [bind].
  apply upd_ok_len in E5 as [L5 N5]. apply upd_ok_len in E6 as [L6 N6].
  assert (BB : exists b2, (if Nat.eqb (p_level a) 0 then Ok 0 else idx (p_plen b) (p_level a - 1)) = Ok b2).
  { destruct (Nat.eqb_spec (p_level a) 0); [eauto|]. destruct (nth_error (p_plen b) (p_level a - 1)) as [x|] eqn:NE; [exists x; now apply idx_Ok|].
    apply nth_error_None in NE. lia. }
  destruct BB as (b2 & ->). cbn [bind]. rewrite upd_in by lia. cbn [bind]. rewrite upd_in by lia. cbn [bind]. eexists. split; [reflexivity|].
  repeat split; cbn [p_setKey p_setPos p_level p_pos p_node p_plen]; auto; rewrite set_nth_len; lia.
Qed.
Lemma finish_ok ls a b label pos a' : p_finish ls a label pos = Ok a' -> exists b', p_finish ls b label pos = Ok b'.
Proof. intros H. unfold p_finish in *. apply bind_ok in H as (t & -> & _). cbn [bind]. eauto. Qed.
Lemma down_sim cp ls todo : forall a b pos a', sim a b -> p_down_loop cp todo ls a pos = Ok a' -> exists b', p_down_loop cp todo ls b pos = Ok b'.
Proof.
  induction todo as [|todo IH]; intros a b pos a' S H; cbn [p_down_loop] in *; [discriminate|].
  apply bind_ok in H as (n & -> & H). cbn [bind]. apply bind_ok in H as (p & -> & H). cbn [bind]. apply bind_ok in H as (lb & -> & H). cbn [bind].
  apply bind_ok in H as (hc & -> & H). cbn [bind]. apply bind_ok in H as (a2 & E & H).
  destruct (append_sim ls (p_setLevel a (Datatypes.S (p_level a))) (p_setLevel b (Datatypes.S (p_level b))) lb p n a2) as (b2 & -> & S2); auto.
  { destruct S as (S1 & S2 & S3 & S4). repeat split; cbn [p_setLevel p_level p_pos p_node p_plen]; auto. }
  cbn [bind]. destruct hc; cbn [negb] in *; [eapply IH; eauto|eapply finish_ok; eauto].
Qed.
Lemma move_sim cp s a b a' : let ls := s_ls s in sim a b -> p_key a <> [] -> p_key b <> [] -> p_move cp ls a = Ok a' -> exists b', p_move cp ls b = Ok b'.
Proof.
  intros ls S Ka Kb H. unfold ls in *. rewrite p_move_eq in H |- * by assumption. destruct S as (S1 & S2 & S3 & S4). rewrite <- S1, <- S2.
  apply bind_ok in H as (p & -> & H). cbn [bind]. apply bind_ok in H as (lb & -> & H). cbn [bind]. apply bind_ok in H as (hc & -> & H). cbn [bind].
  destruct hc; cbn [negb] in *; [eapply down_sim; [|exact H]; repeat split; auto|eapply finish_ok; eauto].
Qed.

Section Top.
Variable fp : bytes -> N.
Variable c : config.
Variables (NSS : list (list tnode)) (s : surf) (kvs : list kv).
Hypothesis SR : surf_rep fp c NSS 0 s.
Hypothesis RT : nth_error NSS 0 = Some [mknode kvs 0].
Notation W := (root_wf0 fp c NSS 0 s kvs SR RT).
Notation root := (mknode kvs 0).

Lemma set_move (left : bool) (sp0 : sparseIter) A b B : slen NSS 0 sp0 -> p_level sp0 = 0 -> p_atTerm sp0 = false -> items root = A ++ b :: B ->
  exists it', p_move (if left then ls_firstLabelPos (s_ls s) else ls_lastLabelPos (s_ls s)) (s_ls s) (p_setKey (p_setPos sp0 (set_nth (p_pos sp0) 0 (length A)) (p_node sp0) (p_plen sp0)) [i_label b]) = Ok it'.
Proof.
  intros SL LV AT EI. set (f := mkF [] root A b B).
  assert (K0 : pok kvs []) by exact Logic.I. assert (T0 : topn kvs [] [] root) by (split; reflexivity).
  assert (L0 : 0 < length NSS) by (apply nth_error_Some; rewrite RT; discriminate).
  assert (PK : pok kvs [f]) by (split; [exact Logic.I|]; split; [split; reflexivity|exact EI]).
  destruct SL as [s1 s2 s3].
  set (a := mkSI false false 0 0 0 (ndpath root ++ [i_label b]) (set_nth (p_pos sp0) 0 (length A)) (set_nth (p_node sp0) 0 0) (set_nth (p_plen sp0) 0 (tn_d root + 1))).
  assert (SA : SS NSS 0 kvs [] root a f []).
  { constructor; cbn [a p_level p_pos p_node p_plen p_key p_startDepth length].
    - reflexivity.
    - constructor; cbn [a p_pos p_node p_plen]; rewrite set_nth_len; assumption.
    - cbn [sslots]. split; [|exact Logic.I]. unfold sslot. cbn [length f f_P f_n f_A]. split; [|split].
      + rewrite set_nth_same by lia. reflexivity.
      + rewrite set_nth_same by lia. reflexivity.
      + rewrite set_nth_same by lia. f_equal. change (tn_pd root) with 0. lia.
    - reflexivity.
    - exact PK.
    - reflexivity. }
  destruct (move_at fp c NSS 0 s kvs SR RT [] [] root T0 eq_refl (RNT fp c NSS 0 s kvs SR RT) left a f [] SA eq_refl) as (a' & E & _).
  eapply move_sim; [| | |exact E].
  - repeat split; cbn [a p_level p_pos p_node p_plen p_setKey p_setPos]; rewrite ?set_nth_len; auto.
  - cbn [a p_key]. intros X. apply (f_equal (@length _)) in X. rewrite app_length in X. cbn in X. lia.
  - cbn [p_setKey p_key]. discriminate.
Qed.

Lemma root_sparse : exists S2, ls_rep fp c (s_ls s) (length NSS) 0 [] ([] ++ root :: S2) /\ Forall nwf ([] ++ root :: S2) /\ (2 <= length (items root) \/ @nil tnode = []).
Proof.
  assert (K0 : pok kvs []) by exact Logic.I. assert (T0 : topn kvs [] [] root) by (split; reflexivity).
  destruct (sparse_at fp c NSS 0 s kvs SR RT [] eq_refl [] [] root K0 T0) as (S1 & S2 & EC & NI & ES & R & Wf & TW & LT).
  assert (E1 : S1 = []) by (rewrite ES; reflexivity). subst S1. exists S2. split; [exact R|]. split; [exact Wf|]. right. reflexivity.
Qed.

Lemma first_zero it : iter_for s it -> exists it', it_seekToFirst s it = Ok it' /\ it_valid it' = false.
Proof.
  intros F. unfold it_seekToFirst. rewrite (ldr_h _ _ _ _ _ (sr_ld fp c NSS 0 s SR)). change (Nat.ltb 0 0) with false. cbv iota.
  pose proof (sr_ls fp c NSS 0 s SR) as R. assert (L0 : 0 < length NSS) by (apply nth_error_Some; rewrite RT; discriminate).
  rewrite (lsr_height _ _ _ _ _ _ _ R). destruct (Nat.ltb_spec 0 (length NSS)); [|lia].
  pose proof (reset_idle fp c NSS 0 s SR it F) as [SL _ AT LV _]. unfold it_sparse. set (sp0 := i_sparse (it_reset it)) in *. unfold p_setToFirst.
  destruct root_sparse as (S2 & R2 & W2 & _). pose proof (items_pos _ W) as IP. destruct (items root) as [|b B] eqn:EI; [cbn in IP; lia|].
  rewrite upd_in by (rewrite (sl_pos _ _ _ SL); lia). cbn [bind].
  pose proof (s_getLabel fp c _ _ _ _ [] S2 root R2 [] b B EI) as GL. change (length (flat_map items []) + length (@nil item)) with 0 in GL. rewrite GL. cbn [bind].
  destruct (set_move true sp0 [] b B SL LV AT EI) as (p & E). cbn [length] in E. unfold p_moveLeft. rewrite E. cbn [bind]. eexists. split; reflexivity.
Qed.
Lemma last_zero it : iter_for s it -> exists it', it_seekToLast s it = Ok it' /\ it_valid it' = false.
Proof.
  intros F. unfold it_seekToLast. rewrite (ldr_h _ _ _ _ _ (sr_ld fp c NSS 0 s SR)). change (Nat.ltb 0 0) with false. cbv iota.
  pose proof (sr_ls fp c NSS 0 s SR) as R. assert (L0 : 0 < length NSS) by (apply nth_error_Some; rewrite RT; discriminate).
  rewrite (lsr_height _ _ _ _ _ _ _ R). destruct (Nat.ltb_spec 0 (length NSS)); [|lia].
  pose proof (reset_idle fp c NSS 0 s SR it F) as [SL _ AT LV _]. unfold it_sparse. set (sp0 := i_sparse (it_reset it)) in *. unfold p_setToLast.
  destruct root_sparse as (S2 & R2 & W2 & _). pose proof (items_pos _ W) as IP. destruct (last_split (items root)) as [E|(A & b & EI)]; [rewrite E in IP; cbn in IP; lia|].
  pose proof (s_lastLabelPos fp c _ _ _ _ [] S2 root R2 W2) as LP. change (length (@nil tnode) + length (@nil tnode)) with 0 in LP. change (length (flat_map items [])) with 0 in LP.
  rewrite EI, app_length in LP. cbn [length] in LP. replace (0 + (length A + 1 - 1)) with (length A) in LP by lia. rewrite LP. cbn [bind].
  rewrite upd_in by (rewrite (sl_pos _ _ _ SL); lia). cbn [bind].
  pose proof (s_getLabel fp c _ _ _ _ [] S2 root R2 A b [] EI) as GL. change (length (flat_map items []) + length A) with (length A) in GL. rewrite GL. cbn [bind].
  destruct (set_move false sp0 A b [] SL LV AT EI) as (p & E). unfold p_moveRight. rewrite E. cbn [bind]. eexists. split; reflexivity.
Qed.
End Top.

(** Without dense levels neither makes the iterator valid. *)
Theorem seek_zero fp vs h r keys vals hint s it0 : valid_input vs h r keys vals -> built fp vs h r keys vals hint s -> iter_for s it0 -> ld_height (s_ld s) = 0 ->
  (exists it, it_seekToFirst s it0 = Ok it /\ it_valid it = false) /\ (exists it, it_seekToLast s it0 = Ok it /\ it_valid it = false).
Proof.
  intros V B F H0. destruct (built_rep fp vs h r keys vals hint s V B) as (cut & SR & W & CO & LO & MF & RT).
  pose proof (ldr_h _ _ _ _ _ (sr_ld _ _ _ _ _ SR)) as EH. rewrite H0 in EH. subst cut. split; [eapply first_zero|eapply last_zero]; eauto.
Qed.

Lemma visits_len s step it l : visits s step it l -> forall l', visits s step it l' -> length l = length l'.
Proof.
  induction 1 as [it V|it k v it' l V K W E H IH]; intros l' H'; inversion H' as [? V'|? k' v' it2 l2 V' K' W' E' H2]; subst; try congruence; auto.
  rewrite E in E'. apply Ok_eq in E'. subst. cbn [length]. f_equal. now apply IH.
Qed.
Theorem forward_complete fp vs h r keys vals hint s it0 it : valid_input vs h r keys vals -> built fp vs h r keys vals hint s ->
  iter_for s it0 -> it_seekToFirst s it0 = Ok it ->
  (visits s (it_next s) it (map (shown vs keys) (combine keys vals)) <-> 0 < ld_height (s_ld s) /\ ~ prefix_of_all keys).
Proof.
  intros V B F E. destruct (Nat.eq_dec (ld_height (s_ld s)) 0) as [Z|NZ].
  - split; [|lia]. intros VI. exfalso. destruct (seek_zero _ _ _ _ _ _ _ _ it0 V B F Z) as [(it1 & E1 & NV) _]. rewrite E in E1. apply Ok_eq in E1. subst it1.
    pose proof (visits_len _ _ _ _ VI [] (visits_end _ _ _ NV)) as L. destruct (built_rep _ _ _ _ _ _ _ _ V B) as (cut & SR & W & _). pose proof (w_ne _ W) as NE.
    rewrite map_length in L. change (tn_kvs (mknode (combine keys vals) 0)) with (combine keys vals) in NE. destruct (combine keys vals); [congruence|discriminate].
  - destruct (forward_all _ _ _ _ _ _ _ _ V B it0 F ltac:(lia)) as (it1 & E1 & C). rewrite E in E1. apply Ok_eq in E1. subst it1. split.
    + intros VI. split; [lia|]. destruct C as [[P V']|[P _]]; [|exact P]. exfalso. pose proof (visits_len _ _ _ _ VI _ V') as L. rewrite !map_length in L.
      destruct (built_rep _ _ _ _ _ _ _ _ V B) as (cut & SR & W & _). pose proof (w_ne _ W) as NE. change (tn_kvs (mknode (combine keys vals) 0)) with (combine keys vals) in NE.
      destruct (combine keys vals); [congruence|]. cbn in L. lia.
    + intros [_ NP]. destruct C as [[P _]|[_ V']]; [contradiction|exact V'].
Qed.
Theorem backward_complete fp vs h r keys vals hint s it0 it : valid_input vs h r keys vals -> built fp vs h r keys vals hint s ->
  iter_for s it0 -> it_seekToLast s it0 = Ok it ->
  (visits s (it_prev s) it (map (shown vs keys) (rev (combine keys vals))) <->
   0 < ld_height (s_ld s) /\ forall i, 0 < i -> i < length keys -> ~ prev_stops (ld_height (s_ld s)) keys i).
Proof.
  intros V B F E. destruct (built_rep _ _ _ _ _ _ _ _ V B) as (cut & SR & W & _ & _ & MF & _). pose proof (w_ne _ W) as NE.
  change (tn_kvs (mknode (combine keys vals) 0)) with (combine keys vals) in NE.
  assert (LK : length (combine keys vals) = length keys) by (rewrite <- (map_length fst), MF; reflexivity).
  destruct (Nat.eq_dec (ld_height (s_ld s)) 0) as [Z|NZ].
  - split; [|lia]. intros VI. exfalso. destruct (seek_zero _ _ _ _ _ _ _ _ it0 V B F Z) as [_ (it1 & E1 & NV)]. rewrite E in E1. apply Ok_eq in E1. subst it1.
    pose proof (visits_len _ _ _ _ VI [] (visits_end _ _ _ NV)) as L. rewrite map_length, rev_length in L. destruct (combine keys vals); [congruence|discriminate].
  - destruct (backward_all _ _ _ _ _ _ _ _ V B it0 F ltac:(lia)) as (it1 & m & E1 & Lm & SM & NM & V'). rewrite E in E1. apply Ok_eq in E1. subst it1. split.
    + intros VI. split; [lia|]. pose proof (visits_len _ _ _ _ VI _ V') as L. rewrite !map_length, !rev_length, skipn_length, LK in L. intros i I1 I2. apply NM; lia.
    + intros [_ NP]. destruct (Nat.eq_dec m 0) as [->|]; [exact V'|]. exfalso. apply (NP m); auto. lia.
Qed.

Theorem no_call_panics fp vs h r keys vals hint s : valid_input vs h r keys vals -> built fp vs h r keys vals hint s ->
  (ld_height (s_ld s) = 0 \/ ~ prefix_of_all keys) ->
  forall cs, Forall (call_ok_all (ld_height (s_ld s)) keys) cs -> completes s (newIterator s) cs.
Proof.
  intros V B C cs F. pose proof (cursor_all _ _ _ _ _ _ _ _ V B cs F) as FA. clear F. revert FA. generalize (@None nat) (newIterator s). induction cs as [|c cs IH]; intros cur it FA; cbn [follows_all completes] in *; destruct FA as [SH FA]; split.
  1,3: destruct cur as [i|]; cbn [shows] in SH; [intros _; destruct SH as (_ & _ & K & Vv); eauto|intros H; congruence].
  - exact Logic.I.
  - destruct FA as [(P & _)|(_ & it' & cur' & E & _ & FA)]; [|eauto]. exfalso. destruct c; cbn [call_panics] in P; try contradiction. destruct cur as [i|]; [|contradiction]. destruct P as (_ & P1 & P2). destruct C; [lia|contradiction].
Qed.
