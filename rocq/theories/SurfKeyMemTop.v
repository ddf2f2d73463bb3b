(** * Proofs on keys handed out by the iterators: properties C65, C66, C67. *)
From Verif Require Import Base BitsModel VecModel SurfModel SurfSpec SurfTop SurfIter SurfIterSpec SurfIterMain SurfPrevSpec SurfIterPrev3 SurfKeyMem SurfKeyMemSpec SurfKeyMemProofs.

(** ** Key *)
Lemma md_Key_mem it b : md_Key it = Ok b -> b_mem b = b_mem (md_key it) /\ b_cur b = b_cur (md_key it).
Proof.
  unfold md_Key. destruct (md_atPrefix it); [|intros E; assert (X : md_key it = b) by congruence; now rewrite X].
  destruct (sub_chk (b_len (md_key it)) 1) as [n| |]; cbn [bind]; try discriminate.
  unfold b_trunc. destruct (Nat.leb n (length (b_arr (md_key it)))); [|discriminate]. intros E.
  assert (X : mkBuf (b_mem (md_key it)) (b_cur (md_key it)) n = b) by congruence. rewrite <- X. now split.
Qed.
Lemma mi_key_sim grow it : i_ok it ->
  rsim (fun y k => i_ok (fst y) /\ iabs (fst y) = iabs it /\ key_bytes (fst y) (snd y) = k) (mi_key grow it) (it_key (iabs it)).
Proof.
  intros (O1 & O2 & O3) r E. unfold it_key in E. cbn [iabs i_dense i_sparse] in E.
  change (d_isComplete (dabs (mi_dense it))) with (md_isComplete (mi_dense it)) in E.
  destruct (d_Key (dabs (mi_dense it))) as [v| |] eqn:EV; cbn [bind] in E; try discriminate E.
  destruct (md_Key_sim grow (mi_dense it) O1 v EV) as (dk & ED & Od & Vd). unfold mi_key. rewrite ED. cbn [bind].
  destruct (md_isComplete (mi_dense it)) eqn:C.
  - eexists. split; [reflexivity|]. cbn [fst snd]. split; [now split; [|split]|]. split; [reflexivity|]. unfold key_bytes, k_buf. cbn [k_owner k_arr k_len].
    destruct (md_Key_mem _ _ ED) as (Em & Ec). rewrite <- Em. assert (X : v = r) by congruence. rewrite <- X, <- Vd. reflexivity.
  - destruct (p_Key (pabs (mi_sparse it))) as [w| |] eqn:EW; cbn [bind] in E; try discriminate E.
    destruct (mp_Key_sim grow (mi_sparse it) O2 w EW) as (pk & EP & Op & Vp). rewrite EP. cbn [bind].
    destruct (b_clear_ok _ O3) as (Oc & Vc). destruct (b_append_ok grow _ (b_view dk) Oc) as (Ob & Vb). set (b := b_append grow (b_clear (mi_buf it)) (b_view dk)) in *.
    destruct (b_append_ok grow _ (b_view pk) Ob) as (Ob2 & Vb2). eexists. split; [reflexivity|]. cbn [fst snd].
    assert (K : b_ok (mkBuf (b_mem (b_append grow b (b_view pk))) (b_cur b) (b_len b))).
    { unfold b_append. destruct Ob as (C1 & C2). destruct (Nat.leb_spec (b_len b + length (b_view pk)) (length (b_arr b))) as [F|F]; split; unfold b_arr; cbn [b_mem b_cur b_len].
      - now rewrite length_set_arr.
      - rewrite nth_set_arr by exact C1. rewrite Nat.eqb_refl, splice_len by exact F. exact C2.
      - rewrite app_length. lia.
      - rewrite app_nth1 by exact C1. exact C2. }
    split; [now split; [|split]|]. split; [reflexivity|]. assert (X : v ++ w = r) by congruence. rewrite <- X, <- Vd, <- Vp.
    change (b_view (b_append grow b (b_view pk)) = b_view dk ++ b_view pk). rewrite Vb2, Vb, Vc. reflexivity.
Qed.

(** ** Moving *)
Lemma mcall_sim grow s it c : i_ok it -> rsim (Ri (mi_buf it)) (mcall_run grow s it c) (icall_run s (iabs it) c).
Proof.
  intros O. destruct c as [q| | | |]; cbn [mcall_run icall_run].
  - eapply rsim_bind; [exact (mi_seek_sim grow s it q O)|]. intros (a & f) (a' & f') (R & _). now apply rsim_ok.
  - now apply mi_seekToFirst_sim.
  - now apply mi_seekToLast_sim.
  - now apply mi_next_sim.
  - now apply mi_prev_sim.
Qed.

(** ** Stores by the caller *)
Lemma splice_min a i l : length a <= length (splice a i l).
Proof. unfold splice. rewrite !app_length, firstn_length, skipn_length. lia. Qed.
Lemma b_store_len b c i l : b_ok b -> b_ok (b_store b c i l).
Proof.
  intros (C & L). unfold b_store. destruct (Nat.lt_ge_cases c (length (b_mem b))) as [H|H]; split; unfold b_arr in *; cbn [b_mem b_cur b_len].
  - now rewrite length_set_arr.
  - rewrite nth_set_arr by exact H. destruct (Nat.eqb_spec (b_cur b) c) as [<-|_]; [|exact L]. pose proof (splice_min (nth (b_cur b) (b_mem b) []) i l). lia.
  - unfold set_arr. rewrite (firstn_all2 _ H), app_length. apply (Nat.lt_le_trans _ _ _ C), Nat.le_add_r.
  - unfold set_arr. rewrite (firstn_all2 _ H), app_nth1 by exact C. exact L.
Qed.
Lemma b_store_view b c i l : b_ok b -> c <> b_cur b \/ b_len b <= i -> b_view (b_store b c i l) = b_view b.
Proof.
  intros (C & L) S. unfold b_store, b_view, b_arr in *. cbn [b_mem b_cur b_len]. destruct (Nat.lt_ge_cases c (length (b_mem b))) as [H|H].
  - rewrite nth_set_arr by exact H. destruct (Nat.eqb_spec (b_cur b) c) as [E|_]; [|reflexivity]. destruct S as [S|S]; [congruence|].
    rewrite <- E. set (a := nth (b_cur b) (b_mem b) []) in *. unfold splice. rewrite firstn_app, firstn_firstn, Nat.min_l by exact S.
    rewrite firstn_length. replace (b_len b - Nat.min i (length a)) with 0 by lia. cbn [firstn]. now rewrite app_nil_r.
  - unfold set_arr. rewrite (firstn_all2 _ H), app_nth1 by exact C. reflexivity.
Qed.
Lemma update_ok it k i l : i_ok it -> spares it k i = true ->
  i_ok (k_update it k (fun b => b_store b (k_arr k) i l)) /\ iabs (k_update it k (fun b => b_store b (k_arr k) i l)) = iabs it.
Proof.
  intros (O1 & O2 & O3) S. unfold k_update. destruct (k_owner k) eqn:W.
  - split; [split; [cbn [mi_dense md_setKey md_key]; now apply b_store_len|now split]|]. unfold iabs. cbn [mi_dense mi_sparse]. f_equal.
    unfold dabs. cbn [md_setKey md_valid md_search md_left md_right md_sendNode md_sendDepth md_key md_level md_pos md_plen md_atPrefix].
    rewrite b_store_view; [reflexivity|exact O1|]. unfold spares in S. rewrite W in S. apply orb_prop in S.
    destruct S as [S|S]; [left; now apply negb_true_iff, Nat.eqb_neq in S|right; now apply Nat.leb_le in S].
  - split; [split; [exact O1|split; [exact O2|cbn [mi_buf]; now apply b_store_len]]|reflexivity].
Qed.
Lemma append_ok it k l : i_ok it -> spares it k (k_len k) || outgrows it k l = true -> i_ok (key_append it k l) /\ iabs (key_append it k l) = iabs it.
Proof.
  intros O S. unfold key_append. destruct (Nat.leb_spec (k_len k + length l) (length (nth (k_arr k) (b_mem (k_buf it k)) []))) as [H|H]; [|now split].
  apply orb_prop in S as [S|S]; [now apply update_ok|]. unfold outgrows in S. apply Nat.ltb_lt in S. lia.
Qed.

(** ** Whole programs *)
Lemma exec_sim grow s : forall acts it refs out, i_ok it -> careful grow s it refs acts = true -> lexec s (iabs it) acts = Ok out ->
  exists it' refs', mexec grow s it refs acts = Ok (it', refs', out) /\ i_ok it'.
Proof.
  induction acts as [|a acts IH]; intros it refs out O Ca E; cbn [lexec mexec careful] in *.
  - exists it, refs. assert (out = []) by congruence. subst out. now split.
  - destruct a as [c| |j i x|j l].
    + destruct (icall_run s (iabs it) c) as [y| |] eqn:EC; cbn [bind] in E; try discriminate E.
      destruct (mcall_sim grow s it c O y EC) as (it1 & E1 & O1 & <- & _). rewrite E1 in *. cbn [bind]. apply IH; auto.
    + destruct (it_key (iabs it)) as [k| |] eqn:EK; cbn [bind] in E; try discriminate E.
      destruct (lexec s (iabs it) acts) as [o| |] eqn:EL; cbn [bind] in E; try discriminate E.
      destruct (mi_key_sim grow it O k EK) as ((it1 & kr) & E1 & O1 & A1 & K1). cbn [fst snd] in *. rewrite E1 in *. cbn [bind].
      rewrite <- A1 in EL. destruct (IH it1 (refs ++ [kr]) o O1 Ca EL) as (it2 & refs2 & E2 & O2). rewrite E2. cbn [bind].
      exists it2, refs2. split; [|exact O2]. rewrite K1. assert (k :: o = out) by congruence. now subst out.
    + destruct (nth_error refs j) as [k|] eqn:N; [|discriminate Ca]. apply andb_prop in Ca. destruct Ca as (Ca1 & Ca). apply andb_prop in Ca1. destruct Ca1 as (L & S).
      unfold idx. rewrite N. cbn [bind]. unfold key_set. rewrite L. cbn [bind].
      destruct (update_ok it k i [x] O S) as (O1 & A1). apply IH; [exact O1|exact Ca|now rewrite A1].
    + destruct (nth_error refs j) as [k|] eqn:N; [|discriminate Ca]. apply andb_prop in Ca. destruct Ca as (S & Ca). unfold idx. rewrite N. cbn [bind]. destruct (append_ok it k l O S) as (O1 & A1). apply IH; [exact O1|exact Ca|now rewrite A1].
Qed.
Lemma careful_reads grow s : forall acts it refs, Forall reads_only acts -> careful grow s it refs acts = true.
Proof.
  induction acts as [|a acts IH]; intros it refs F; cbn [careful]; [reflexivity|]. pose proof (Forall_inv F) as H. pose proof (Forall_inv_tail F) as F'.
  destruct a; cbn [reads_only] in H; [| |destruct H|destruct H].
  - destruct (mcall_run grow s it c); auto.
  - destruct (mi_key grow it) as [(? & ?)| |]; auto.
Qed.
Lemma exec_new grow s acts out : careful grow s (newMIterator s) [] acts = true -> lexec s (newIterator s) acts = Ok out ->
  exists it refs, mexec grow s (newMIterator s) [] acts = Ok (it, refs, out).
Proof.
  intros C E. destruct (mi_new_sim s) as (O & A). rewrite <- A in E. destruct (exec_sim grow s acts _ [] out O C E) as (it & refs & X & _). eauto.
Qed.
Lemma exec_reads grow s acts out : Forall reads_only acts -> lexec s (newIterator s) acts = Ok out ->
  exists it refs, mexec grow s (newMIterator s) [] acts = Ok (it, refs, out).
Proof. intros F. apply exec_new. now apply careful_reads. Qed.

(** ** Iteration *)
Lemma visits_sim grow s mstep step : (forall it, i_ok it -> rsim (Ri (mi_buf it)) (mstep it) (step (iabs it))) ->
  forall l x, visits s step x l -> forall it, i_ok it -> iabs it = x -> mvisits grow s mstep it l.
Proof.
  intros H l x V. induction V as [x E|x k v x' l E EK EV ES V IH]; intros it O A; subst x.
  - apply mvisits_end. exact E.
  - destruct (mi_key_sim grow it O k EK) as ((it1 & kr) & E1 & O1 & A1 & K1). cbn [fst snd] in *. rewrite <- K1.
    rewrite <- A1 in EV, ES. destruct (H it1 O1 x' ES) as (it2 & E2 & O2 & A2 & _). econstructor; eauto.
Qed.

(** ** Moves leave the Iterator's own buffer alone *)
Lemma onSparse_buf it f it' : mi_onSparse it f = Ok it' -> mi_buf it' = mi_buf it.
Proof. unfold mi_onSparse. destruct (f (mi_sparse it)); cbn [bind]; try discriminate. intros E. assert (X : mkMI (mi_dense it) a (mi_buf it) = it') by congruence. now rewrite <- X. Qed.
Lemma incr_buf grow s it it' : mi_incrDense grow s it = Ok it' -> mi_buf it' = mi_buf it.
Proof.
  unfold mi_incrDense. destruct (negb _); [intros E; congruence|]. destruct (md_next _ _ _) as [d| |]; cbn [bind]; try discriminate.
  destruct (negb _); [intros E; assert (X : mkMI d (mi_sparse it) (mi_buf it) = it') by congruence; now rewrite <- X|].
  destruct (md_left d); [intros E; assert (X : mkMI d (mi_sparse it) (mi_buf it) = it') by congruence; now rewrite <- X|]. intros E. now apply onSparse_buf in E.
Qed.
Lemma decr_buf grow s it it' : mi_decrDense grow s it = Ok it' -> mi_buf it' = mi_buf it.
Proof.
  unfold mi_decrDense. destruct (negb _); [intros E; congruence|]. destruct (md_prev _ _ _) as [d| |]; cbn [bind]; try discriminate.
  destruct (negb _); [intros E; assert (X : mkMI d (mi_sparse it) (mi_buf it) = it') by congruence; now rewrite <- X|].
  destruct (md_right d); [intros E; assert (X : mkMI d (mi_sparse it) (mi_buf it) = it') by congruence; now rewrite <- X|]. intros E. now apply onSparse_buf in E.
Qed.
Lemma call_buf grow s it c it' : mcall_run grow s it c = Ok it' -> mi_buf it' = mi_buf it.
Proof.
  destruct c as [q| | | |]; cbn [mcall_run].
  - destruct (mi_seek grow s it q) as [(a & f)| |] eqn:E; cbn [bind]; try discriminate. intros X. assert (a = it') by congruence. subst a.
    revert E. unfold mi_seek. destruct (_ && _); [intros E; assert (Y : mi_reset it = it') by congruence; now rewrite <- Y|].
    destruct (md_seek _ _ _ _) as [(d & fp)| |]; cbn [bind]; try discriminate.
    destruct (_ || _); [intros E; assert (Y : mkMI d (mi_sparse (mi_reset it)) (mi_buf (mi_reset it)) = it') by congruence; now rewrite <- Y|].
    destruct (negb (md_search d)).
    + destruct (mp_seek _ _ _ _) as [(p & fq)| |]; cbn [bind]; try discriminate. destruct (negb _).
      * destruct (mi_incrDense _ _ _) as [y| |] eqn:EI; cbn [bind]; try discriminate. intros E. assert (y = it') by congruence. subst y. now apply incr_buf in EI.
      * cbn [bind]. intros E. assert (Y : mkMI d p (mi_buf (mi_pass (mkMI d (mi_sparse (mi_reset it)) (mi_buf (mi_reset it))))) = it') by congruence. now rewrite <- Y.
    + destruct (negb (md_left d)); [|discriminate]. destruct (mi_onSparse _ _) as [y| |] eqn:EI; cbn [bind]; try discriminate. intros E. assert (y = it') by congruence. subst y. now apply onSparse_buf in EI.
  - unfold mi_seekToFirst. destruct (Nat.ltb _ _).
    + destruct (md_setToFirst _ _ _) as [d| |]; cbn [bind]; try discriminate. destruct (md_moveLeft _ _ d) as [e| |]; cbn [bind]; try discriminate.
      destruct (md_left e); intros E; [assert (Y : mkMI e (mi_sparse (mi_reset it)) (mi_buf (mi_reset it)) = it') by congruence; now rewrite <- Y|]. now apply onSparse_buf in E.
    + destruct (Nat.ltb _ _); intros E; [now apply onSparse_buf in E|]. assert (Y : mi_reset it = it') by congruence. now rewrite <- Y.
  - unfold mi_seekToLast. destruct (Nat.ltb _ _).
    + destruct (md_setToLast _ _ _) as [d| |]; cbn [bind]; try discriminate. destruct (md_moveRight _ _ d) as [e| |]; cbn [bind]; try discriminate.
      destruct (md_right e); intros E; [assert (Y : mkMI e (mi_sparse (mi_reset it)) (mi_buf (mi_reset it)) = it') by congruence; now rewrite <- Y|]. now apply onSparse_buf in E.
    + destruct (Nat.ltb _ _); intros E; [now apply onSparse_buf in E|]. assert (Y : mi_reset it = it') by congruence. now rewrite <- Y.
  - unfold mi_next. destruct (mp_valid _); [|apply incr_buf]. destruct (mp_next _ _ _) as [p| |]; cbn [bind]; try discriminate.
    destruct (mp_valid p); [intros E; assert (Y : mkMI (mi_dense it) p (mi_buf it) = it') by congruence; now rewrite <- Y|]. intros E. now apply incr_buf in E.
  - unfold mi_prev. destruct (mp_valid _); [|apply decr_buf]. destruct (mp_prev _ _ _) as [p| |]; cbn [bind]; try discriminate.
    destruct (mp_valid p); [intros E; assert (Y : mkMI (mi_dense it) p (mi_buf it) = it') by congruence; now rewrite <- Y|]. intros E. now apply decr_buf in E.
Qed.
Lemma calls_buf grow s : forall cs it it', mcalls_run grow s it cs = Ok it' -> mi_buf it' = mi_buf it.
Proof.
  induction cs as [|c cs IH]; intros it it'; cbn [mcalls_run]; [intros E; congruence|].
  destruct (mcall_run grow s it c) as [y| |] eqn:E; cbn [bind]; try discriminate. intros X. rewrite (IH _ _ X). now apply call_buf in E.
Qed.
Lemma kept_moves grow s it k cs it' : k_owner k = OfIterator -> mcalls_run grow s it cs = Ok it' -> key_bytes it' k = key_bytes it k.
Proof. intros W E. unfold key_bytes, k_buf. rewrite W. now rewrite (calls_buf _ _ _ _ _ E). Qed.
Lemma kept grow s it it1 k cs it2 : mi_key grow it = Ok (it1, k) -> md_isComplete (mi_dense it) = false ->
  mcalls_run grow s it1 cs = Ok it2 -> key_bytes it2 k = key_bytes it1 k.
Proof.
  intros E C. apply kept_moves. revert E. unfold mi_key. destruct (md_Key (mi_dense it)); cbn [bind]; try discriminate. rewrite C.
  destruct (mp_Key (mi_sparse it)); cbn [bind]; try discriminate. intros E.
  apply (f_equal (fun x => match x with Ok (_, k) => k_owner k | _ => OfIterator end)) in E. symmetry. exact E.
Qed.
Lemma below_spared grow it it1 k i : mi_key grow it = Ok (it1, k) -> md_isComplete (mi_dense it) = false -> spares it1 k i = true.
Proof.
  intros E C. unfold spares. assert (W : k_owner k = OfIterator); [|now rewrite W]. revert E. unfold mi_key. destruct (md_Key (mi_dense it)); cbn [bind]; try discriminate. rewrite C.
  destruct (mp_Key (mi_sparse it)); cbn [bind]; try discriminate. intros E.
  apply (f_equal (fun x => match x with Ok (_, k) => k_owner k | _ => OfIterator end)) in E. symmetry. exact E.
Qed.
Lemma append_spared grow it it1 k : mi_key grow it = Ok (it1, k) -> md_atPrefix (mi_dense it) = false -> spares it1 k (k_len k) = true.
Proof.
  intros E A. destruct (md_isComplete (mi_dense it)) eqn:C; [|exact (below_spared _ _ _ _ _ E C)]. revert E. unfold mi_key, md_Key. rewrite A, C. cbn [bind]. intros E.
  assert (X : (it, mkRef OfDense (b_cur (md_key (mi_dense it))) (b_len (md_key (mi_dense it)))) = (it1, k)) by congruence.
  pose proof (f_equal snd X) as Xk. pose proof (f_equal fst X) as Xi. cbn [fst snd] in Xk, Xi. rewrite <- Xk, <- Xi. unfold spares. cbn [k_owner k_arr k_len].
  rewrite Nat.leb_refl. apply orb_true_r.
Qed.

(** ** Iteration over built filters *)
Lemma mforward grow fp vs h r keys vals hint s : valid_input vs h r keys vals -> built fp vs h r keys vals hint s -> 0 < ld_height (s_ld s) ->
  exists it, mi_seekToFirst grow s (newMIterator s) = Ok it /\
    ((prefix_of_all keys /\ mvisits grow s (mi_next grow s) it (map (shown vs keys) (tl (combine keys vals)))) \/
     (~ prefix_of_all keys /\ mvisits grow s (mi_next grow s) it (map (shown vs keys) (combine keys vals)))).
Proof.
  intros V B D. destruct (mi_new_sim s) as (O & A).
  destruct (forward_all fp vs h r keys vals hint s V B (newIterator s) (new_iter_for s) D) as (x & E & H). rewrite <- A in E.
  destruct (mi_seekToFirst_sim grow s _ O x E) as (it & E1 & O1 & A1 & _). exists it. split; [exact E1|].
  destruct H as [(P & H)|(P & H)]; [left|right]; (split; [exact P|]); exact (visits_sim grow s _ _ (mi_next_sim grow s) _ _ H it O1 A1).
Qed.
Lemma mbackward grow fp vs h r keys vals hint s : valid_input vs h r keys vals -> built fp vs h r keys vals hint s -> 0 < ld_height (s_ld s) ->
  exists it m, mi_seekToLast grow s (newMIterator s) = Ok it /\ m < length keys /\ prev_stops (ld_height (s_ld s)) keys m /\
    (forall i, m < i -> i < length keys -> ~ prev_stops (ld_height (s_ld s)) keys i) /\
    mvisits grow s (mi_prev grow s) it (map (shown vs keys) (rev (skipn m (combine keys vals)))).
Proof.
  intros V B D. destruct (mi_new_sim s) as (O & A).
  destruct (backward_all fp vs h r keys vals hint s V B (newIterator s) (new_iter_for s) D) as (x & m & E & M & P & N & H). rewrite <- A in E.
  destruct (mi_seekToLast_sim grow s _ O x E) as (it & E1 & O1 & A1 & _). exists it, m.
  repeat (split; [assumption|]). exact (visits_sim grow s _ _ (mi_prev_sim grow s) _ _ H it O1 A1).
Qed.
