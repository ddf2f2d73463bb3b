(** * The buffer model of SurfKeyMem.v computes what the list model of SurfIter.v does. *)
From Verif Require Import Base BitsModel VecModel SurfModel SurfIter SurfKeyMem.

(* ------------------------------------------------------------------ *)
(** ** Buffers *)

Definition b_ok (b : buf) : Prop := b_cur b < length (b_mem b) /\ b_len b <= length (b_arr b).

Lemma nth_set_arr m c a i : c < length m -> nth i (set_arr m c a) [] = if Nat.eqb i c then a else nth i m [].
Proof.
  intros H. unfold set_arr. destruct (Nat.eqb_spec i c) as [->|N].
  - rewrite app_nth2; rewrite firstn_length, Nat.min_l by lia; [|lia]. now rewrite Nat.sub_diag.
  - destruct (Nat.lt_ge_cases i c) as [L|L].
    + rewrite app_nth1 by (rewrite firstn_length; lia). rewrite <- (firstn_skipn c m) at 2. rewrite app_nth1; [reflexivity|rewrite firstn_length; lia].
    + rewrite app_nth2; rewrite firstn_length, Nat.min_l by lia; [|lia].
      destruct (i - c) as [|d] eqn:D; [lia|]. cbn [nth]. rewrite <- (firstn_skipn (S c) m) at 2.
      rewrite app_nth2; rewrite firstn_length, Nat.min_l by lia; [|lia]. f_equal. lia.
Qed.
Lemma length_set_arr m c a : c < length m -> length (set_arr m c a) = length m.
Proof. intros H. unfold set_arr. rewrite app_length, firstn_length. cbn [length]. rewrite skipn_length. lia. Qed.
Lemma splice_len a i l : i + length l <= length a -> length (splice a i l) = length a.
Proof. intros H. unfold splice. rewrite !app_length, firstn_length, skipn_length. lia. Qed.
Lemma splice_view a i l : i + length l <= length a -> firstn (i + length l) (splice a i l) = firstn i a ++ l.
Proof.
  intros H. unfold splice. rewrite app_assoc. replace (i + length l) with (length (firstn i a ++ l)) at 1 by (rewrite app_length, firstn_length; lia).
  rewrite firstn_app, Nat.sub_diag, firstn_all. cbn [firstn]. now rewrite app_nil_r.
Qed.
Lemma splice_keep a i l n : n <= i -> i + length l <= length a -> firstn n (splice a i l) = firstn n a.
Proof.
  intros N H. unfold splice. rewrite firstn_app, firstn_length, Nat.min_l by lia. replace (n - i) with 0 by lia. cbn [firstn].
  rewrite app_nil_r, firstn_firstn. f_equal. lia.
Qed.

Section Sim.
Variable grow : nat -> nat -> nat.

Lemma b_append_ok b l : b_ok b -> b_ok (b_append grow b l) /\ b_view (b_append grow b l) = b_view b ++ l.
Proof.
  intros (C & L). unfold b_append. destruct (Nat.leb_spec (b_len b + length l) (length (b_arr b))) as [F|F].
  - unfold b_ok, b_view, b_arr in *. cbn [b_cur b_mem b_len]. rewrite length_set_arr, nth_set_arr by exact C. rewrite Nat.eqb_refl, splice_len, splice_view by exact F. auto.
  - assert (LV : length (b_view b) = b_len b) by (unfold b_view; rewrite firstn_length; lia).
    set (n := grow _ _). generalize dependent (b_view b). intros v LV. set (bb := mkBuf _ _ _).
    assert (A : b_arr bb = v ++ l ++ repeat 0 n) by (unfold b_arr, bb; cbn [b_cur b_mem]; rewrite app_nth2, Nat.sub_diag by lia; reflexivity).
    split; [split; [unfold bb; cbn [b_cur b_mem]; rewrite app_length; cbn [length]; lia|rewrite A, !app_length; unfold bb; cbn [b_len]; lia]|].
    unfold b_view. rewrite A, app_assoc. unfold bb. cbn [b_len]. replace (b_len b + length l) with (length (v ++ l)) by (rewrite app_length; lia).
    rewrite firstn_app, Nat.sub_diag, firstn_all. cbn [firstn]. now rewrite app_nil_r.
Qed.
Lemma b_clear_ok b : b_ok b -> b_ok (b_clear b) /\ b_view (b_clear b) = [].
Proof. intros (C & L). unfold b_ok, b_clear, b_arr in *. cbn [b_cur b_mem b_len]. split; [lia|reflexivity]. Qed.
Lemma b_view_len b : b_ok b -> length (b_view b) = b_len b.
Proof. intros (C & L). unfold b_view. rewrite firstn_length. lia. Qed.
Lemma nil_ok : b_ok nil_buf.
Proof. unfold b_ok, nil_buf, b_arr. cbn. lia. Qed.

(** ** Simulation of results *)
Definition rsim {A B} (R : A -> B -> Prop) (m : res A) (l : res B) : Prop := forall r, l = Ok r -> exists x, m = Ok x /\ R x r.
Lemma rsim_ok {A B} (R : A -> B -> Prop) x y : R x y -> rsim R (Ok x) (Ok y).
Proof. intros H r E. assert (y = r) by congruence. subst. eauto. Qed.
Lemma rsim_panic {A B} (R : A -> B -> Prop) m : rsim R m Panic.
Proof. intros r E. discriminate. Qed.
Lemma rsim_hang {A B} (R : A -> B -> Prop) m : rsim R m Hang.
Proof. intros r E. discriminate. Qed.
Lemma rsim_pure {A B C} (R : A -> B -> Prop) (e : res C) f g : (forall x, rsim R (f x) (g x)) -> rsim R (bind e f) (bind e g).
Proof. intros H. destruct e; cbn [bind]; [apply H|apply rsim_panic|apply rsim_hang]. Qed.
Lemma rsim_bind {A B C D} (R : A -> B -> Prop) (Q : C -> D -> Prop) m l f g :
  rsim Q m l -> (forall x y, Q x y -> rsim R (f x) (g y)) -> rsim R (bind m f) (bind l g).
Proof.
  intros H K. destruct l as [y| |]; cbn [bind]; [|apply rsim_panic|apply rsim_hang].
  destruct (H y eq_refl) as (x & -> & Q1). cbn [bind]. now apply K.
Qed.
Lemma rsim_if {A B} (R : A -> B -> Prop) (b : bool) m m' l l' : rsim R m l -> rsim R m' l' -> rsim R (if b then m else m') (if b then l else l').
Proof. destruct b; auto. Qed.

Definition Rb (b : buf) (v : bytes) : Prop := b_ok b /\ b_view b = v.
Lemma b_trunc_sim b n : b_ok b -> rsim Rb (b_trunc b n) (slice (b_view b) 0 n).
Proof.
  intros (C & L) r E. unfold slice in E. destruct (Nat.leb 0 n && Nat.leb n (length (b_view b))) eqn:F; [|discriminate].
  rewrite Nat.sub_0_r in E. cbn [skipn] in E. assert (X : firstn n (b_view b) = r) by congruence. apply andb_prop in F. destruct F as [_ F]. apply Nat.leb_le in F.
  assert (LV : length (b_view b) = b_len b) by (unfold b_view; rewrite firstn_length; lia). rewrite LV in F.
  unfold b_trunc. destruct (Nat.leb_spec n (length (b_arr b))) as [G|G]; [|lia]. eexists. split; [reflexivity|].
  split; [split; cbn [b_cur b_mem b_len]; [exact C|exact G]|]. unfold b_view, b_arr. cbn [b_cur b_mem b_len]. rewrite <- X. unfold b_view. rewrite firstn_firstn. f_equal. lia.
Qed.

(* ------------------------------------------------------------------ *)
(** ** Dense levels *)
Definition dabs (it : mdIter) : denseIter :=
  mkDI (md_valid it) (md_search it) (md_left it) (md_right it) (md_sendNode it) (md_sendDepth it) (b_view (md_key it)) (md_level it) (md_pos it) (md_plen it) (md_atPrefix it).
Definition Rd (it : mdIter) (x : denseIter) : Prop := b_ok (md_key it) /\ dabs it = x.
Definition Rdp (it : mdIter * bool) (x : denseIter * bool) : Prop := Rd (fst it) (fst x) /\ snd it = snd x.
Lemma Rd_i it : b_ok (md_key it) -> Rd it (dabs it).
Proof. split; auto. Qed.

Ltac rd := first [assumption|split; [cbn [md_key md_setLevel md_setFlags md_setValid md_complete_flags md_setAtPrefix md_setSend md_setKey md_setPos]; assumption|reflexivity]].
Ltac st := first [apply rsim_pure; intro|apply rsim_if|apply rsim_panic|apply rsim_hang|apply rsim_ok; rd].
Ltac ind L := eapply rsim_bind; [apply L; try assumption|let it := fresh "it" in intros it ? (? & <-)].

Lemma md_append_sim ld it pos : b_ok (md_key it) -> rsim Rd (md_append grow ld it pos) (d_append ld (dabs it) pos).
Proof.
  intros O. unfold md_append, d_append. apply rsim_pure; intro prefix. apply rsim_pure; intro ps. apply rsim_pure; intro base. apply rsim_pure; intro pl.
  apply rsim_ok. destruct (b_append_ok _ prefix O) as (O1 & V1). destruct (b_append_ok _ [pos mod 256] O1) as (O2 & V2).
  split; [exact O2|]. unfold dabs, d_setKey, d_setPos. cbn [md_valid md_search md_left md_right md_sendNode md_sendDepth md_key md_level md_pos md_plen md_atPrefix md_setKey md_setPos d_valid d_search d_left d_right d_sendNode d_sendDepth d_key d_level d_pos d_plen d_atPrefix].
  rewrite V2, V1, <- app_assoc. reflexivity.
Qed.
Lemma send_len it n v s l r : b_ok (md_key it) ->
  Rd (md_setFlags (md_setSend it n (b_len (md_key it))) v s l r) (d_setFlags (d_setSend (dabs it) n (length (d_key (dabs it)))) v s l r).
Proof. intros O. split; [exact O|]. cbn [dabs d_key]. rewrite (b_view_len _ O). reflexivity. Qed.
Lemma md_left_loop_sim ld : forall todo it pos, b_ok (md_key it) -> rsim Rd (md_left_loop grow todo ld it pos) (d_left_loop todo ld (dabs it) pos).
Proof.
  induction todo as [|todo IH]; intros it pos O; cbn [md_left_loop d_left_loop].
  - st. apply rsim_ok. now apply send_len.
  - st. st. st. st. eapply rsim_bind; [exact (md_append_sim ld (md_setLevel it (S (md_level it))) _ O)|]. intros it1 ? (O1 & <-). st; [st|]. st. st; [st|]. now apply IH.
Qed.
Lemma md_moveLeft_sim ld it : b_ok (md_key it) -> rsim Rd (md_moveLeft grow ld it) (d_moveLeft ld (dabs it)).
Proof. intros O. unfold md_moveLeft, d_moveLeft. st. st. st; [st|]. now apply md_left_loop_sim. Qed.
Lemma md_right_loop_sim ld : forall todo it pos, b_ok (md_key it) -> rsim Rd (md_right_loop grow todo ld it pos) (d_right_loop todo ld (dabs it) pos).
Proof.
  induction todo as [|todo IH]; intros it pos O; cbn [md_right_loop d_right_loop].
  - st. apply rsim_ok. now apply send_len.
  - st. st. destruct x0 as [p|]; [|st]. eapply rsim_bind; [exact (md_append_sim ld (md_setLevel it (S (md_level it))) _ O)|]. intros it1 ? (O1 & <-). st. st; [st|]. now apply IH.
Qed.
Lemma md_moveRight_sim ld it : b_ok (md_key it) -> rsim Rd (md_moveRight grow ld it) (d_moveRight ld (dabs it)).
Proof. intros O. unfold md_moveRight, d_moveRight. st. st. st; [st|]. now apply md_right_loop_sim. Qed.
Lemma md_setToFirst_sim ld it : b_ok (md_key it) -> rsim Rd (md_setToFirst grow ld it) (d_setToFirst ld (dabs it)).
Proof. intros O. unfold md_setToFirst, d_setToFirst. st. st; [now apply md_append_sim|]. st. now apply md_append_sim. Qed.
Lemma md_setToLast_sim ld it : b_ok (md_key it) -> rsim Rd (md_setToLast grow ld it) (d_setToLast ld (dabs it)).
Proof. intros O. unfold md_setToLast, d_setToLast. st. now apply md_append_sim. Qed.
Lemma md_setAt_sim it pos : b_ok (md_key it) -> rsim Rd (md_setAt grow it pos) (d_setAt (dabs it) pos).
Proof.
  intros O. unfold md_setAt, d_setAt. st. st. eapply rsim_bind; [exact (b_trunc_sim _ x0 O)|]. intros k v (Ok & V). st. apply rsim_ok.
  destruct (b_append_ok _ [pos mod 256] Ok) as (O1 & V1). split; [exact O1|]. unfold dabs, d_setKey, d_setPos.
  cbn [md_valid md_search md_left md_right md_sendNode md_sendDepth md_key md_level md_pos md_plen md_atPrefix md_setKey md_setPos d_valid d_search d_left d_right d_sendNode d_sendDepth d_key d_level d_pos d_plen d_atPrefix].
  rewrite V1, V. reflexivity.
Qed.
Lemma md_truncate_sim it : b_ok (md_key it) -> rsim Rd (md_truncate it) (d_truncate (dabs it)).
Proof.
  intros O. unfold md_truncate, d_truncate. st. eapply rsim_bind; [exact (b_trunc_sim _ x O)|]. intros k v (Ok & V). apply rsim_ok. split; [exact Ok|].
  unfold dabs, d_setKey. cbn [md_valid md_search md_left md_right md_sendNode md_sendDepth md_key md_level md_pos md_plen md_atPrefix md_setKey d_valid d_search d_left d_right d_sendNode d_sendDepth d_key d_level d_pos d_plen d_atPrefix].
  rewrite V. reflexivity.
Qed.
Lemma md_next_climb_sim ld : forall level it, b_ok (md_key it) -> rsim Rd (md_next_climb grow level ld it) (d_next_climb level ld (dabs it)).
Proof.
  induction level as [|l IH]; intros it O; cbn [md_next_climb d_next_climb]; st; st; st.
  - st.
  - eapply rsim_bind; [exact (md_setAt_sim (md_setLevel it 0) x0 O)|]. intros it1 ? (O1 & <-). now apply md_moveLeft_sim.
  - now apply IH.
  - eapply rsim_bind; [exact (md_setAt_sim (md_setLevel it (S l)) x0 O)|]. intros it1 ? (O1 & <-). now apply md_moveLeft_sim.
Qed.
Lemma md_next_sim ld it : b_ok (md_key it) -> rsim Rd (md_next grow ld it) (d_next ld (dabs it)).
Proof. intros O. unfold md_next, d_next. st; [st|]. st; [exact (md_moveLeft_sim ld (md_setAtPrefix it false) O)|]. now apply md_next_climb_sim. Qed.
Lemma md_prev_climb_sim ld : forall level it, b_ok (md_key it) -> rsim Rd (md_prev_climb grow level ld it) (d_prev_climb level ld (dabs it)).
Proof.
  induction level as [|l IH]; intros it O; cbn [md_prev_climb d_prev_climb]; st; st; (destruct x0 as [pp|]; [|st]); st.
  - st. st; [|st]. eapply rsim_bind; [exact (md_truncate_sim (md_setLevel it 0) O)|]. intros it1 ? (O1 & <-). st.
  - eapply rsim_bind; [exact (md_setAt_sim (md_setLevel it 0) pp O)|]. intros it1 ? (O1 & <-). now apply md_moveRight_sim.
  - st. st; [|now apply IH]. eapply rsim_bind; [exact (md_truncate_sim (md_setLevel it (S l)) O)|]. intros it1 ? (O1 & <-). st.
  - eapply rsim_bind; [exact (md_setAt_sim (md_setLevel it (S l)) pp O)|]. intros it1 ? (O1 & <-). now apply md_moveRight_sim.
Qed.
Lemma md_prev_sim ld it : b_ok (md_key it) -> rsim Rd (md_prev grow ld it) (d_prev ld (dabs it)).
Proof.
  intros O. unfold md_prev, d_prev. st; [st|]. st; [|now apply md_prev_climb_sim]. st. exact (md_prev_climb_sim ld _ (md_setLevel (md_setAtPrefix it false) x) O).
Qed.
Lemma md_compareSuffix_sim ld it key pos level : b_ok (md_key it) -> rsim Rdp (md_compareSuffix grow ld it key pos level) (d_compareSuffix ld (dabs it) key pos level).
Proof.
  intros O. unfold md_compareSuffix, d_compareSuffix. st. st. st.
  - eapply rsim_bind; [exact (md_next_sim ld it O)|]. intros it1 ? (O1 & <-). apply rsim_ok. split; [rd|reflexivity].
  - apply rsim_ok. split; [rd|reflexivity].
Qed.
Lemma md_seek_loop_sim ld key : forall todo it nodeID depth, b_ok (md_key it) -> rsim Rdp (md_seek_loop grow todo ld it key nodeID depth) (d_seek_loop todo ld (dabs it) key nodeID depth).
Proof.
  induction todo as [|todo IH]; intros it nodeID depth O; cbn [md_seek_loop d_seek_loop].
  - apply rsim_ok. split; [rd|reflexivity].
  - st. st. st.
    + st; [apply rsim_ok; split; [rd|reflexivity]|]. st. eapply rsim_bind; [exact (md_next_sim ld (md_setLevel it x1) O)|]. intros it1 ? (O1 & <-). apply rsim_ok. split; [rd|reflexivity].
    + st.
      * eapply rsim_bind with (Q := Rd); [st; [st; now apply md_append_sim|now apply md_setToFirst_sim]|]. intros it1 ? (O1 & <-). st.
        eapply rsim_bind with (Q := Rd); [st; [st|now apply md_moveLeft_sim]|]. intros it2 ? (O2 & <-). apply rsim_ok. split; [rd|reflexivity].
      * st. eapply rsim_bind; [exact (md_append_sim ld it _ O)|]. intros it1 ? (O1 & <-). st. st.
        { eapply rsim_bind; [exact (md_next_sim ld it1 O1)|]. intros it2 ? (O2 & <-). apply rsim_ok. split; [rd|reflexivity]. }
        st. st; [now apply md_compareSuffix_sim|]. st. exact (IH (md_setLevel it1 (S (md_level it1))) _ _ O1).
Qed.
Lemma md_seek_sim ld it key : b_ok (md_key it) -> rsim Rdp (md_seek grow ld it key) (d_seek ld (dabs it) key).
Proof. intros O. exact (md_seek_loop_sim ld key (ld_height ld) (md_setLevel it 0) 0 0 O). Qed.
Lemma md_Key_sim it : b_ok (md_key it) -> rsim Rb (md_Key it) (d_Key (dabs it)).
Proof.
  intros O. unfold md_Key, d_Key. cbn [dabs d_atPrefix d_key]. rewrite (b_view_len _ O). st; [|apply rsim_ok; now split]. st. now apply b_trunc_sim.
Qed.

(* ------------------------------------------------------------------ *)
(** ** Sparse levels *)
Definition pabs (it : mpIter) : sparseIter :=
  mkSI (mp_valid it) (mp_atTerm it) (mp_startNode it) (mp_startDepth it) (mp_level it) (b_view (mp_key it)) (mp_pos it) (mp_node it) (mp_plen it).
Definition Rp (it : mpIter) (x : sparseIter) : Prop := b_ok (mp_key it) /\ pabs it = x.
Definition Rpp (it : mpIter * bool) (x : sparseIter * bool) : Prop := Rp (fst it) (fst x) /\ snd it = snd x.
Ltac rp := first [assumption|split; [cbn [mp_key mp_setLevel mp_setValid mp_setAtTerm mp_setKey mp_setPos mp_setStart]; assumption|reflexivity]].
Ltac sp := first [apply rsim_pure; intro|apply rsim_if|apply rsim_panic|apply rsim_hang|apply rsim_ok; rp].
Ltac keyed := unfold pabs, p_setKey, p_setPos; cbn [mp_valid mp_atTerm mp_startNode mp_startDepth mp_level mp_key mp_pos mp_node mp_plen mp_setKey mp_setPos p_valid p_atTerm p_startNode p_startDepth p_level p_key p_pos p_node p_plen].

Lemma mp_append_sim ls it label pos nodeID : b_ok (mp_key it) -> rsim Rp (mp_append grow ls it label pos nodeID) (p_append ls (pabs it) label pos nodeID).
Proof.
  intros O. unfold mp_append, p_append. apply rsim_pure; intro pid. apply rsim_pure; intro prefix. do 4 sp. apply rsim_ok.
  destruct (b_append_ok _ prefix O) as (O1 & V1). destruct (b_append_ok _ [label] O1) as (O2 & V2). split; [exact O2|]. keyed. rewrite V2, V1, <- app_assoc. reflexivity.
Qed.
Lemma mp_finish_sim ls it label pos : b_ok (mp_key it) -> rsim Rp (mp_finish ls it label pos) (p_finish ls (pabs it) label pos).
Proof. intros O. unfold mp_finish, p_finish. sp. apply rsim_ok. destruct x; rp. Qed.
Lemma mp_down_sim ls f : forall todo it pos, b_ok (mp_key it) -> rsim Rp (mp_down_loop grow f todo ls it pos) (p_down_loop f todo ls (pabs it) pos).
Proof.
  induction todo as [|todo IH]; intros it pos O; cbn [mp_down_loop p_down_loop]; [sp|]. do 4 sp.
  eapply rsim_bind; [exact (mp_append_sim ls (mp_setLevel it (S (mp_level it))) _ _ _ O)|]. intros it1 ? (O1 & <-). sp; [now apply mp_finish_sim|now apply IH].
Qed.
Lemma mp_move_sim ls f it : b_ok (mp_key it) -> rsim Rp (mp_move grow f ls it) (p_move f ls (pabs it)).
Proof.
  intros O. unfold mp_move, p_move. eapply rsim_bind with (Q := Rp).
  - cbn [pabs p_key]. pose proof (b_view_len _ O) as L. destruct (b_len (mp_key it)), (b_view (mp_key it)) eqn:V; try discriminate L.
    + sp. sp. replace (mkSI _ _ _ _ _ [] _ _ _) with (pabs it) by (unfold pabs; now rewrite V). now apply mp_append_sim.
    + apply rsim_ok. split; [exact O|]. unfold pabs. now rewrite V.
  - intros it1 ? (O1 & <-). do 3 sp. sp; [now apply mp_finish_sim|now apply mp_down_sim].
Qed.
Lemma mp_setAt_sim ls it pos : b_ok (mp_key it) -> rsim Rp (mp_setAt grow ls it pos) (p_setAt ls (pabs it) pos).
Proof.
  intros O. unfold mp_setAt, p_setAt. sp. sp. eapply rsim_bind; [exact (b_trunc_sim _ x0 O)|]. intros k v (Ok & V). sp. sp. apply rsim_ok.
  destruct (b_append_ok _ [x1] Ok) as (O1 & V1). split; [exact O1|]. keyed. rewrite V1, V. reflexivity.
Qed.
Lemma cleared it : b_ok (mp_key it) -> Rp (mp_setKey (mp_setValid (mp_setLevel it 0) false) (b_clear (mp_key it))) (p_setKey (p_setValid (p_setLevel (pabs it) 0) false) []).
Proof. intros O. split; [apply (b_clear_ok _ O)|reflexivity]. Qed.
Lemma mp_next_climb_sim ls : forall level it, b_ok (mp_key it) -> rsim Rp (mp_next_climb grow level ls it) (p_next_climb level ls (pabs it)).
Proof.
  induction level as [|l IH]; intros it O; cbn [mp_next_climb p_next_climb]; sp; sp; sp; sp.
  - apply rsim_ok. now apply cleared.
  - eapply rsim_bind; [exact (mp_setAt_sim ls (mp_setLevel it 0) _ O)|]. intros it1 ? (O1 & <-). now apply mp_move_sim.
  - now apply IH.
  - eapply rsim_bind; [exact (mp_setAt_sim ls (mp_setLevel it (S l)) _ O)|]. intros it1 ? (O1 & <-). now apply mp_move_sim.
Qed.
Lemma mp_next_sim ls it : b_ok (mp_key it) -> rsim Rp (mp_next grow ls it) (p_next ls (pabs it)).
Proof. intros O. exact (mp_next_climb_sim ls (mp_level it) (mp_setAtTerm it false) O). Qed.
Lemma mp_prev_climb_sim ls : forall level it, b_ok (mp_key it) -> rsim Rp (mp_prev_climb grow level ls it) (p_prev_climb level ls (pabs it)).
Proof.
  induction level as [|l IH]; intros it O; cbn [mp_prev_climb p_prev_climb]; sp; sp; sp; sp.
  - apply rsim_ok. now apply cleared.
  - sp. eapply rsim_bind; [exact (mp_setAt_sim ls (mp_setLevel it 0) _ O)|]. intros it1 ? (O1 & <-). now apply mp_move_sim.
  - now apply IH.
  - sp. eapply rsim_bind; [exact (mp_setAt_sim ls (mp_setLevel it (S l)) _ O)|]. intros it1 ? (O1 & <-). now apply mp_move_sim.
Qed.
Lemma mp_prev_sim ls it : b_ok (mp_key it) -> rsim Rp (mp_prev grow ls it) (p_prev ls (pabs it)).
Proof. intros O. unfold mp_prev, p_prev. sp. sp. sp; [sp|]. exact (mp_prev_climb_sim ls (mp_level it) (mp_setAtTerm it false) O). Qed.
Lemma mp_leftInNext_sim ls it pos nodeID size label : b_ok (mp_key it) -> rsim Rp (mp_leftInNext grow ls it pos nodeID size label) (p_leftInNext ls (pabs it) pos nodeID size label).
Proof.
  intros O. unfold mp_leftInNext, p_leftInNext. sp. destruct x as [p ok]. sp. eapply rsim_bind; [exact (mp_append_sim ls it _ _ _ O)|]. intros it1 ? (O1 & <-).
  sp; [now apply mp_move_sim|now apply mp_next_sim].
Qed.
Lemma mp_compareSuffix_sim ls it key pos level : b_ok (mp_key it) -> rsim Rpp (mp_compareSuffix grow ls it key pos level) (p_compareSuffix ls (pabs it) key pos level).
Proof.
  intros O. unfold mp_compareSuffix, p_compareSuffix. sp. sp. sp; [|apply rsim_ok; split; [rp|reflexivity]].
  eapply rsim_bind; [exact (mp_next_sim ls it O)|]. intros it1 ? (O1 & <-). apply rsim_ok. split; [rp|reflexivity].
Qed.
Lemma mp_seek_loop_sim ls key : forall todo it nodeID pos depth, b_ok (mp_key it) -> rsim Rpp (mp_seek_loop grow todo ls it key nodeID pos depth) (p_seek_loop todo ls (pabs it) key nodeID pos depth).
Proof.
  induction todo as [|todo IH]; intros it nodeID pos depth O; cbn [mp_seek_loop p_seek_loop].
  - sp. sp. sp.
    + eapply rsim_bind; [exact (mp_append_sim ls it _ _ _ O)|]. intros it1 ? (O1 & <-). apply rsim_ok. split; [rp|reflexivity].
    + sp; [|apply rsim_ok; split; [rp|reflexivity]]. eapply rsim_bind; [exact (mp_move_sim ls _ it O)|]. intros it1 ? (O1 & <-). apply rsim_ok. split; [rp|reflexivity].
  - sp. sp. sp. sp.
    + sp; [apply rsim_ok; split; [rp|reflexivity]|]. eapply rsim_bind; [exact (mp_next_sim ls (mp_setLevel it (mp_level it - 1)) O)|]. intros it1 ? (O1 & <-). apply rsim_ok. split; [rp|reflexivity].
    + sp.
      * sp. eapply rsim_bind; [exact (mp_append_sim ls it _ _ _ O)|]. intros it1 ? (O1 & <-). eapply rsim_bind; [exact (mp_move_sim ls _ it1 O1)|]. intros it2 ? (O2 & <-). apply rsim_ok. split; [rp|reflexivity].
      * sp. sp. sp. destruct x4 as [p ok]. sp.
        { eapply rsim_bind; [exact (mp_leftInNext_sim ls it _ _ _ _ O)|]. intros it1 ? (O1 & <-). apply rsim_ok. split; [rp|reflexivity]. }
        eapply rsim_bind; [exact (mp_append_sim ls it _ _ _ O)|]. intros it1 ? (O1 & <-). sp. sp; [now apply mp_compareSuffix_sim|]. sp. sp.
        exact (IH (mp_setLevel it1 (S (mp_level it1))) _ _ _ O1).
Qed.
Lemma mp_seek_sim ls it key : b_ok (mp_key it) -> rsim Rpp (mp_seek grow ls it key) (p_seek ls (pabs it) key).
Proof. intros O. unfold mp_seek, p_seek. sp. exact (mp_seek_loop_sim ls key _ (mp_setLevel it 0) _ _ _ O). Qed.
Lemma mp_Key_sim it : b_ok (mp_key it) -> rsim Rb (mp_Key it) (p_Key (pabs it)).
Proof.
  intros O. unfold mp_Key, p_Key. cbn [pabs p_atTerm p_key]. rewrite (b_view_len _ O). sp; [|apply rsim_ok; now split]. sp. now apply b_trunc_sim.
Qed.
Lemma mp_set_sim it ps l : b_ok (mp_key it) ->
  Rp (mp_setKey (mp_setPos it ps (mp_node it) (mp_plen it)) (b_append grow (b_clear (mp_key it)) [l])) (p_setKey (p_setPos (pabs it) ps (p_node (pabs it)) (p_plen (pabs it))) [l]).
Proof.
  intros O. destruct (b_clear_ok _ O) as (O1 & V1). destruct (b_append_ok _ [l] O1) as (O2 & V2). split; [exact O2|]. keyed. rewrite V2, V1. reflexivity.
Qed.
Lemma mp_setToFirst_sim ls it : b_ok (mp_key it) -> rsim Rp (mp_setToFirst grow ls it) (p_setToFirst ls (pabs it)).
Proof. intros O. unfold mp_setToFirst, p_setToFirst. sp. sp. apply rsim_ok. now apply mp_set_sim. Qed.
Lemma mp_setToLast_sim ls it : b_ok (mp_key it) -> rsim Rp (mp_setToLast grow ls it) (p_setToLast ls (pabs it)).
Proof. intros O. unfold mp_setToLast, p_setToLast. sp. sp. sp. apply rsim_ok. now apply mp_set_sim. Qed.

(* ------------------------------------------------------------------ *)
(** ** Iterator *)
Definition iabs (it : miter) : iter := mkIter (dabs (mi_dense it)) (pabs (mi_sparse it)).
Definition i_ok (it : miter) : Prop := b_ok (md_key (mi_dense it)) /\ b_ok (mp_key (mi_sparse it)) /\ b_ok (mi_buf it).
(** Related to the list iterator; the Iterator's own buffer is [b]. *)
Definition Ri (b : buf) (it : miter) (x : iter) : Prop := i_ok it /\ iabs it = x /\ mi_buf it = b.
Definition Rip (b : buf) (it : miter * bool) (x : iter * bool) : Prop := Ri b (fst it) (fst x) /\ snd it = snd x.
Ltac ri := split; [split; [|split]; cbn [mi_dense mi_sparse mi_buf]; assumption|split; reflexivity].
Ltac si := first [apply rsim_pure; intro|apply rsim_if|apply rsim_panic|apply rsim_hang|apply rsim_ok; ri].

Lemma mi_onSparse_sim it f g : i_ok it -> (forall p, b_ok (mp_key p) -> rsim Rp (f p) (g (pabs p))) -> rsim (Ri (mi_buf it)) (mi_onSparse it f) (it_sparse (iabs it) g).
Proof.
  intros (O1 & O2 & O3) H. unfold mi_onSparse, it_sparse. eapply rsim_bind; [exact (H (mi_sparse it) O2)|]. intros p ? (O4 & <-). si.
Qed.
Lemma mi_incr_sim s it : i_ok it -> rsim (Ri (mi_buf it)) (mi_incrDense grow s it) (incrDense s (iabs it)).
Proof.
  intros O. pose proof O as (O1 & O2 & O3). unfold mi_incrDense, incrDense. si; [si|]. eapply rsim_bind; [exact (md_next_sim (s_ld s) _ O1)|]. intros d ? (O4 & <-).
  si; [si|]. si; [si|]. exact (mi_onSparse_sim (mi_pass (mkMI d (mi_sparse it) (mi_buf it))) _ _ (conj O4 (conj O2 O3)) (fun p => mp_move_sim (s_ls s) (ls_firstLabelPos (s_ls s)) p)).
Qed.
Lemma mi_decr_sim s it : i_ok it -> rsim (Ri (mi_buf it)) (mi_decrDense grow s it) (decrDense s (iabs it)).
Proof.
  intros O. pose proof O as (O1 & O2 & O3). unfold mi_decrDense, decrDense. si; [si|]. eapply rsim_bind; [exact (md_prev_sim (s_ld s) _ O1)|]. intros d ? (O4 & <-).
  si; [si|]. si; [si|]. exact (mi_onSparse_sim (mi_pass (mkMI d (mi_sparse it) (mi_buf it))) _ _ (conj O4 (conj O2 O3)) (fun p => mp_move_sim (s_ls s) (ls_lastLabelPos (s_ls s)) p)).
Qed.
Lemma mi_next_sim s it : i_ok it -> rsim (Ri (mi_buf it)) (mi_next grow s it) (it_next s (iabs it)).
Proof.
  intros O. pose proof O as (O1 & O2 & O3). unfold mi_next, it_next. si; [|now apply mi_incr_sim]. eapply rsim_bind; [exact (mp_next_sim (s_ls s) _ O2)|]. intros p ? (O4 & <-).
  si; [si|]. exact (mi_incr_sim s (mkMI (mi_dense it) p (mi_buf it)) (conj O1 (conj O4 O3))).
Qed.
Lemma mi_prev_sim s it : i_ok it -> rsim (Ri (mi_buf it)) (mi_prev grow s it) (it_prev s (iabs it)).
Proof.
  intros O. pose proof O as (O1 & O2 & O3). unfold mi_prev, it_prev. si; [|now apply mi_decr_sim]. eapply rsim_bind; [exact (mp_prev_sim (s_ls s) _ O2)|]. intros p ? (O4 & <-).
  si; [si|]. exact (mi_decr_sim s (mkMI (mi_dense it) p (mi_buf it)) (conj O1 (conj O4 O3))).
Qed.
Lemma mi_reset_ok it : i_ok it -> i_ok (mi_reset it).
Proof. intros (O1 & O2 & O3). split; [apply (b_clear_ok _ O1)|split; [apply (b_clear_ok _ O2)|exact O3]]. Qed.
Lemma mi_seek_sim s it key : i_ok it -> rsim (Rip (mi_buf it)) (mi_seek grow s it key) (it_seek s (iabs it) key).
Proof.
  intros O. pose proof (mi_reset_ok _ O) as (O1 & O2 & O3). unfold mi_seek, it_seek. si; [apply rsim_ok; split; [ri|reflexivity]|].
  eapply rsim_bind; [exact (md_seek_sim (s_ld s) _ key O1)|]. intros (d & fp) (d' & fp') ((O4 & E) & E2). cbn [fst snd] in O4, E, E2. subst d' fp'.
  si; [apply rsim_ok; split; [ri|reflexivity]|]. si.
  - eapply rsim_bind; [exact (mp_seek_sim (s_ls s) (mi_sparse (mi_pass (mkMI d (mi_sparse (mi_reset it)) (mi_buf (mi_reset it))))) key O2)|].
    intros (p & fq) (p' & fq') ((O5 & E) & E2). cbn [fst snd] in O5, E, E2. subst p' fq'.
    eapply rsim_bind with (Q := Ri (mi_buf it)); [si; [exact (mi_incr_sim s (mkMI d p (mi_buf it)) (conj O4 (conj O5 O3)))|si]|]. intros it1 ? R. apply rsim_ok. now split.
  - si; [|si]. eapply rsim_bind; [exact (mi_onSparse_sim (mi_pass (mkMI d (mi_sparse (mi_reset it)) (mi_buf (mi_reset it)))) _ _ (conj O4 (conj O2 O3)) (fun p => mp_move_sim (s_ls s) (ls_firstLabelPos (s_ls s)) p))|].
    intros it1 ? R. apply rsim_ok. now split.
Qed.
Lemma mi_seekToFirst_sim s it : i_ok it -> rsim (Ri (mi_buf it)) (mi_seekToFirst grow s it) (it_seekToFirst s (iabs it)).
Proof.
  intros O. pose proof (mi_reset_ok _ O) as (O1 & O2 & O3). unfold mi_seekToFirst, it_seekToFirst. si.
  - eapply rsim_bind; [exact (md_setToFirst_sim (s_ld s) _ O1)|]. intros d ? (O4 & <-). eapply rsim_bind; [exact (md_moveLeft_sim (s_ld s) _ O4)|]. intros e ? (O5 & <-).
    si; [si|]. exact (mi_onSparse_sim (mi_pass (mkMI e (mi_sparse (mi_reset it)) (mi_buf (mi_reset it)))) _ _ (conj O5 (conj O2 O3)) (fun p => mp_move_sim (s_ls s) (ls_firstLabelPos (s_ls s)) p)).
  - si; [|si]. apply (mi_onSparse_sim (mi_reset it)); [now split; [|split]|]. intros p Op. eapply rsim_bind; [exact (mp_setToFirst_sim (s_ls s) p Op)|]. intros q ? (Oq & <-). now apply mp_move_sim.
Qed.
Lemma mi_seekToLast_sim s it : i_ok it -> rsim (Ri (mi_buf it)) (mi_seekToLast grow s it) (it_seekToLast s (iabs it)).
Proof.
  intros O. pose proof (mi_reset_ok _ O) as (O1 & O2 & O3). unfold mi_seekToLast, it_seekToLast. si.
  - eapply rsim_bind; [exact (md_setToLast_sim (s_ld s) _ O1)|]. intros d ? (O4 & <-). eapply rsim_bind; [exact (md_moveRight_sim (s_ld s) _ O4)|]. intros e ? (O5 & <-).
    si; [si|]. exact (mi_onSparse_sim (mi_pass (mkMI e (mi_sparse (mi_reset it)) (mi_buf (mi_reset it)))) _ _ (conj O5 (conj O2 O3)) (fun p => mp_move_sim (s_ls s) (ls_lastLabelPos (s_ls s)) p)).
  - si; [|si]. apply (mi_onSparse_sim (mi_reset it)); [now split; [|split]|]. intros p Op. eapply rsim_bind; [exact (mp_setToLast_sim (s_ls s) p Op)|]. intros q ? (Oq & <-). now apply mp_move_sim.
Qed.
Lemma mi_value_sim s it : mi_value s it = it_value s (iabs it).
Proof. reflexivity. Qed.
Lemma mi_valid_sim it : mi_valid it = it_valid (iabs it).
Proof. reflexivity. Qed.
Lemma mi_new_sim s : i_ok (newMIterator s) /\ iabs (newMIterator s) = newIterator s.
Proof. split; [split; [apply nil_ok|split; apply nil_ok]|reflexivity]. Qed.
End Sim.
