(** * Arbitrary sequences of iterator calls. *)
From Coq Require Import Sorted.
From Verif Require Import Base BitsModel BitsFacts VecModel VecProofs VecProofs2 SurfModel SurfTrie SurfSuffix SurfBuild SurfDense SurfEnc SurfBuildTop SurfGet SurfGet2 SurfSpec SurfWalk SurfTop SurfSuffix3 SurfIter SurfIterSpec SurfVerdict SurfIterPath SurfIterDense SurfIterSparse SurfIterTop SurfIterMain SurfIterSeek SurfIterSeek2 SurfIterSeek3.

Lemma filter_all_false {A} (f : A -> bool) l : (forall x, In x l -> f x = false) -> filter f l = [].
Proof. induction l as [|x l IH]; intros H; cbn [filter]; auto. rewrite (H x) by now left. apply IH. intros y Hy. apply H. now right. Qed.
Lemma in_firstn_nth (keys : list bytes) j i : j < i -> i <= length keys -> In (nth j keys []) (firstn i keys).
Proof. intros L H. rewrite <- (firstn_skipn i keys) at 1. rewrite app_nth1 by (rewrite firstn_length; lia). apply nth_In. rewrite firstn_length. lia. Qed.
Lemma seek_index_some r keys q i : i < length keys -> (forall k, In k (firstn i keys) -> passedb r keys q k = true) -> passedb r keys q (nth i keys []) = false -> seek_index r keys q = Some i.
Proof.
  intros L P N. unfold seek_index. replace (length keys) with (i + S (length keys - i - 1)) by lia. rewrite seq_app, filter_app. rewrite filter_all_false.
  - cbn [app seq filter Nat.add]. now rewrite N.
  - intros j Hj. apply in_seq in Hj. rewrite P; auto. apply in_firstn_nth; lia.
Qed.
Lemma seek_index_none r keys q : (forall k, In k keys -> passedb r keys q k = true) -> seek_index r keys q = None.
Proof. intros P. unfold seek_index. rewrite filter_all_false; auto. intros j Hj. apply in_seq in Hj. rewrite P; auto. apply nth_In. lia. Qed.

Section Cursor.
Variables (fp : bytes -> N) (vs h r : nat) (keys vals : list bytes) (hint : Z) (s : surf).
Hypothesis V : valid_input vs h r keys vals.
Hypothesis B : built fp vs h r keys vals hint s.
Notation kvs := (combine keys vals).
Notation NSS := (trie kvs).

Section Rep.
Variable cut : nat.
Hypothesis SR : surf_rep fp (mkcfg vs h r) NSS cut s.
Hypothesis W : nwf (mknode kvs 0).
Hypothesis CO : cfg_ok (mkcfg vs h r).
Hypothesis LO : Forall (leaf_ok (mkcfg vs h r)) (leaves (concat NSS)).
Hypothesis MF : map fst kvs = keys.
Hypothesis RT : nth_error NSS 0 = Some [mknode kvs 0].
Hypothesis INC : increasing (map fst kvs).
Hypothesis NI : Forall (ninv kvs) (concat NSS).
Notation AtP := (At NSS cut kvs (bidle NSS cut kvs)).
Notation dead := (dead NSS cut kvs).

Definition cur_inv (it : iter) (cur : option nat) : Prop :=
  (cur = None /\ dead it) \/ (exists pre e post, cur = Some (length pre) /\ AtP it pre e post).

Lemma len_kvs : length kvs = length keys. Proof. rewrite <- (map_length fst), MF. reflexivity. Qed.

Lemma at_nth it pre e post : AtP it pre e post ->
  length pre < length keys /\ nth (length pre) keys [] = fst e /\ nth (length pre) vals [] = snd e /\
  firstn (length pre) keys = map fst pre /\ skipn (S (length pre)) keys = map fst post /\ length keys = length pre + S (length post).
Proof.
  intros A. pose proof (at_kvs _ _ _ _ _ _ _ _ A) as E. pose proof len_kvs as LK. 
  assert (LE : length keys = length pre + S (length post)) by (rewrite <- LK, <- E, app_length; reflexivity).
  assert (EK : keys = map fst pre ++ fst e :: map fst post) by (rewrite <- MF, <- E, map_app; reflexivity).
  assert (EV : forall i, i < length keys -> nth i vals [] = nth i (map snd kvs) []).
  { pose proof (v_vals _ _ _ _ _ V) as LV. clear -LV. revert vals LV. induction keys as [|k l IH]; intros [|v l'] L i Hi; cbn [length combine map nth] in *; try lia. destruct i as [|i]; auto. apply IH; lia. }
  split; [lia|]. split; [|split; [|split; [|split]]].
  - rewrite EK, app_nth2; rewrite map_length; [|lia]. now rewrite Nat.sub_diag.
  - rewrite EV, <- E, map_app by lia; rewrite app_nth2; rewrite map_length; [|lia]. now rewrite Nat.sub_diag.
  - rewrite EK, firstn_app, map_length, Nat.sub_diag, <- (map_length fst), firstn_all. apply app_nil_r.
  - rewrite EK. change (map fst pre ++ fst e :: map fst post) with (map fst pre ++ [fst e] ++ map fst post). rewrite app_assoc, skipn_app.
    rewrite skipn_all2 by (rewrite app_length, map_length; cbn [length]; lia). replace (S (length pre) - length (map fst pre ++ [fst e])) with 0 by (rewrite app_length, map_length; cbn [length]; lia). reflexivity.
  - exact LE.
Qed.

Lemma cur_shows it cur : cur_inv it cur -> shows vs keys vals s it cur.
Proof.
  intros [[-> D]|(pre & e & post & -> & A)]; cbn [shows].
  - eapply dead_invalid; eauto.
  - destruct (at_nth _ _ _ _ A) as (L & EK & EV & _). destruct (at_show fp (mkcfg vs h r) NSS cut s kvs SR RT LO INC NI _ _ _ _ _ A) as [K Vv].
    rewrite EK, EV, <- MF at 1. split; [rewrite MF; exact L|]. split; [eapply at_valid; eauto|]. split; [|exact Vv]. rewrite K, MF. reflexivity.
Qed.
Lemma cur_for it cur : cur_inv it cur -> iter_for s it.
Proof.
  intros [[_ D]|(pre & e & post & _ & A)]; [eapply (dead_for fp (mkcfg vs h r) NSS cut s kvs SR); eauto|eapply (atP_for fp (mkcfg vs h r) NSS cut s kvs SR); eauto].
Qed.

Lemma cur_step it cur c : cur_inv it cur -> call_ok (ld_height (s_ld s)) keys c ->
  exists it' cur', icall_run s it c = Ok it' /\ moved r keys cur c cur' /\ cur_inv it' cur'.
Proof.
  intros I OK. pose proof (cur_for _ _ I) as F. pose proof (ldr_h _ _ _ _ _ (sr_ld _ _ _ _ _ SR)) as EH. destruct c as [q| | | |]; cbn [icall_run call_ok] in *.
  - destruct OK as (Wq & H).
    assert (QT0 := H). rewrite EH, <- MF in QT0. pose proof (path_ok_qt _ _ cut q (dw_linked _ _ _ _ _ SR) RT NI QT0) as QT.
    pose proof (keys_wf vs h r keys vals V) as WK.
    destruct (seek_spec fp (mkcfg vs h r) NSS cut s kvs SR RT CO LO INC NI q Wq QT it F) as (it' & b & E & [(pre & e & post & A & L & S & LD)|(D & L & _)]); rewrite E; cbn [bind];
      unfold lo, shi, landed in *; rewrite MF in *; change (c_realLen (mkcfg vs h r)) with r in *.
    + apply at_mono in A. exists it', (Some (length pre)). split; [reflexivity|]. split; [|right; eauto 6]. cbn [moved].
      destruct (at_nth _ _ _ _ A) as (LL & EK & EV & E1 & E2 & _). split.
      * symmetry. apply seek_index_some; auto.
        -- rewrite E1. intros k Hk. apply in_map_iff in Hk as (x & <- & Hx). apply passedb_iff. auto.
        -- rewrite EK. destruct LD as [[N LD]|(N & LD & _)]; [|now apply not_passed]. unfold passedb. rewrite (proj2 (nearb_iff _ _ _) N), LD. now destruct b.
      * intros SO. split; [exact LL|]. rewrite E1, E2, EK.
        assert (IP : forall x, In x pre -> In (fst x) keys) by (intros x Hx; rewrite <- (firstn_skipn (length pre) keys), E1; apply in_or_app; left; now apply in_map).
        split; [|split].
        -- rewrite Forall_map. apply Forall_forall. intros x Hx. apply (passed_blt r keys WK); auto.
        -- rewrite Forall_map. apply Forall_forall. intros x Hx. apply (S x Hx).
        -- destruct LD as [[N LD]|(N & LD & _)]; [|now left]. assert (Ie : In (fst e) keys) by (rewrite <- EK; apply nth_In; exact LL).
           destruct (near_order r keys WK (fst e) q Ie Wq SO N) as (_ & G & U). destruct b; [right; auto|left; apply blt_ble; auto].
    + exists it', None. split; [reflexivity|]. split; [|left; auto]. cbn [moved]. assert (LK : forall k, In k keys -> passed r keys q k) by (intros k Hk; rewrite <- MF in Hk; apply in_map_iff in Hk as (x & <- & Hx); auto). split.
      * symmetry. apply seek_index_none. intros k Hk. apply passedb_iff. auto.
      * intros SO. apply Forall_forall. intros k Hk. apply (passed_blt r keys WK); auto.
  - destruct OK as (H0 & NP). rewrite EH in H0. rewrite <- MF in NP. pose proof (no_term_root _ W NP) as NT.
    pose proof (items_pos _ W) as IP. destruct (items (mknode kvs 0)) as [|b l] eqn:EI; [cbn in IP; lia|].
    destruct (first_spec fp (mkcfg vs h r) NSS cut s kvs SR RT it [] b l F H0 EI) as (it' & E & e & post & A); [apply NT; now left|intros x []|].
    exists it', (Some 0). split; [exact E|]. split; [reflexivity|]. right. exists [], e, post. split; auto. apply at_mono. exact A.
  - destruct OK as (H0 & NP & NZ). rewrite EH in H0. rewrite <- MF in NP, NZ. pose proof (root_ok_keys _ W NP NZ) as RO.
    destruct (last_spec fp (mkcfg vs h r) NSS cut s kvs SR RT RO it F H0) as (it' & E & pre & e & A). exists it', (Some (length pre)). split; [exact E|]. split; [|right; eauto 6].
    cbn [moved]. destruct (at_nth _ _ _ _ A) as (_ & _ & _ & _ & _ & LE). cbn [length] in LE. f_equal. lia.
  - destruct I as [[-> D]|(pre & e & post & -> & A)].
    + exists it, None. split; [eapply (dead_next fp (mkcfg vs h r) NSS cut s kvs SR); eauto|]. split; [reflexivity|now left].
    + destruct (at_nth _ _ _ _ A) as (_ & _ & _ & _ & _ & LE). cbn [moved].
      destruct (next_atP fp (mkcfg vs h r) NSS cut s kvs SR RT it pre e post A) as (it' & E & [(-> & D)|(e' & post' & -> & A')]); exists it'; eexists; (split; [exact E|]); (split; [reflexivity|]).
      * left. cbn [length] in LE. destruct (Nat.ltb_spec (S (length pre)) (length keys)); [lia|]. auto.
      * right. cbn [length] in LE. destruct (Nat.ltb_spec (S (length pre)) (length keys)); [|lia]. exists (pre ++ [e]), e', post'. split; auto. rewrite app_length. cbn [length]. f_equal. lia.
  - destruct OK as (NP & NZ). rewrite <- MF in NP, NZ. pose proof (root_ok_keys _ W NP NZ) as RO. destruct I as [[-> D]|(pre & e & post & -> & A)].
    + exists it, None. split; [eapply (dead_prev fp (mkcfg vs h r) NSS cut s kvs SR); eauto|]. split; [reflexivity|now left].
    + cbn [moved].
      destruct (prev_at fp (mkcfg vs h r) NSS cut s kvs SR RT RO it pre e post A) as (it' & E & [(-> & D)|(e' & pre' & -> & A')]); exists it'; eexists; (split; [exact E|]); (split; [reflexivity|]).
      * left. auto.
      * right. rewrite app_length. cbn [length]. destruct (Nat.ltb_spec 0 (length pre' + 1)); [|lia]. exists pre', e', (e :: post). split; auto. f_equal. lia.
Qed.

Lemma cur_follows cs : forall it cur, cur_inv it cur -> Forall (call_ok (ld_height (s_ld s)) keys) cs -> follows vs r keys vals s it cur cs.
Proof.
  induction cs as [|c cs IH]; intros it cur I F; cbn [follows]; (split; [now apply cur_shows|]); auto.
  inversion F; subst. destruct (cur_step it cur c I H1) as (it' & cur' & E & M & I'). exists it', cur'. auto.
Qed.

Lemma cur_new : cur_inv (newIterator s) None.
Proof.
  left. split; auto. pose proof (new_iter_for s) as F. constructor; auto; [eapply slen_it; eauto|eapply dlen_it; eauto].
Qed.
End Rep.

Theorem cursor cs : Forall (call_ok (ld_height (s_ld s)) keys) cs -> follows vs r keys vals s (newIterator s) None cs.
Proof.
  intros F. destruct (built_rep fp vs h r keys vals hint s V B) as (cut & SR & W & CO & LO & MF & RT).
  assert (INC : increasing (map fst kvs)) by (rewrite MF; apply V).
  assert (NI : Forall (ninv kvs) (concat NSS)) by (apply trie_ninv; auto).
  apply (cur_follows cut SR W CO LO MF RT INC NI); auto. now apply (cur_new cut SR).
Qed.
End Cursor.

Lemma follows_completes vs r keys vals s : forall cs it cur, follows vs r keys vals s it cur cs -> completes s it cs.
Proof.
  induction cs as [|c cs IH]; intros it cur F; cbn [follows completes] in *; destruct F as [SH F]; split.
  1,3: destruct cur as [i|]; cbn [shows] in SH; [intros _; destruct SH as (_ & _ & K & V); eauto|intros H; congruence].
  - exact F.
  - destruct F as (it' & cur' & E & _ & F). eauto.
Qed.
Theorem calls_complete fp vs h r keys vals hint s : valid_input vs h r keys vals -> built fp vs h r keys vals hint s ->
  forall cs, Forall (call_ok (ld_height (s_ld s)) keys) cs -> completes s (newIterator s) cs.
Proof. intros V B cs F. eapply follows_completes. eapply cursor; eauto. Qed.
