(** * ART, one goroutine: property C44, exactly when Delete of an absent key returns. *)
From Verif Require Import Base BitsModel VecModel ArtNode ArtModel ArtMono ArtSpec ArtTop ArtRep Props_Art ArtDelSpec ArtDelExact.

(** C44 *)
Theorem C44_delete_diverges_iff : forall m k, reachable m -> valid k -> returns (fun f => Get f m k) None ->
  (diverges (fun f => Delete f m k) <-> exists k', lookalike m k k').
Proof. exact (delete_diverges_iff reachable reach_rep). Qed.
Print Assumptions C44_delete_diverges_iff.
Theorem C44_delete_returns_iff : forall m k, reachable m -> valid k -> returns (fun f => Get f m k) None ->
  ((exists m', returns (fun f => Delete f m k) m') <-> ~ exists k', lookalike m k k').
Proof. exact (delete_returns_iff reachable reach_rep reachable_step). Qed.
Print Assumptions C44_delete_returns_iff.
(** For a key of at most nine bytes this is: some non-empty prefix of it belongs to exactly one stored key. *)
Theorem C44_short_keys : forall m k, reachable m -> valid k -> length k <= 9 -> returns (fun f => Get f m k) None ->
  (diverges (fun f => Delete f m k) <->
   exists q k', q <> [] /\ is_prefix q k /\ is_prefix q k' /\ has_key m k' /\ forall k1, has_key m k1 -> is_prefix q k1 -> k1 = k').
Proof. exact (delete_short_iff reachable reach_rep reachable_step). Qed.
Print Assumptions C44_short_keys.

(** In the tree of C01 the keys fork at the empty path and after twenty bytes, so byte 8 is compared and byte 9 is not. *)
Definition near (i : nat) : bytes := repeat 7 i ++ [8] ++ repeat 7 (19 - i) ++ [6].
Example C44_example : valid (near 8) /\ valid (near 9) /\ valid (near 19) /\
  match exec 60 New ex_ops with
  | Ok (m, _) => (Get 60 m (near 8), Get 60 m (near 9), Get 60 m (near 19), Get 60 m (p20 ++ [9]),
      match Delete 60 m (near 8) with Ok _ => true | _ => false end, Delete 60 m (near 9), Delete 60 m (near 19),
      match Delete 60 m (p20 ++ [9]) with Ok _ => true | _ => false end)
  | _ => (Panic, Panic, Panic, Panic, false, Panic, Panic, false) end =
  (Ok None, Ok None, Ok None, Ok None, true, Hang, Hang, true).
Proof. do 3 (split; [apply validb_ok; vm_compute; reflexivity|]). vm_compute. reflexivity. Qed.
Lemma keys_in k : latest (rev ex_ops) k <> None -> In k [p20 ++ [1; 2]; []; p20 ++ [2]; p20 ++ [3]; p20 ++ [4]; p20 ++ [5]; p20 ++ [6]].
Proof.
  change (rev ex_ops) with (rev (ex_ops)). unfold ex_ops. cbn [rev app latest]. intros H.
  repeat match type of H with context [beqb ?a k] => let E := fresh in destruct (beqb a k) eqn:E; [apply beqb_eq in E; subst k|] end;
    cbn [In]; try congruence; tauto.
Qed.
Lemma ex_key m k v : (forall k, valid k -> returns (fun f => Get f m k) (latest (rev ex_ops) k)) -> validb k = true ->
  latest (rev ex_ops) k = Some v -> has_key m k.
Proof. intros HL V E. apply validb_ok in V. split; auto. exists v. rewrite <- E. auto. Qed.
(** The hypotheses are met there and both sides of the equivalences occur. *)
Example C44_nonvacuous : exists m, reachable m /\
  (returns (fun f => Get f m (near 9)) None /\ diverges (fun f => Delete f m (near 9)) /\ exists k', lookalike m (near 9) k') /\
  (returns (fun f => Get f m (near 8)) None /\ (exists m', returns (fun f => Delete f m (near 8)) m') /\ ~ exists k', lookalike m (near 8) k').
Proof.
  assert (V8 : valid (near 8)) by (apply validb_ok; vm_compute; reflexivity). assert (V9 : valid (near 9)) by (apply validb_ok; vm_compute; reflexivity).
  assert (VO : Forall valid_op ex_ops) by (apply valid_opsb_ok; vm_compute; reflexivity).
  destruct (exec 60 New ex_ops) as [[m outs]| |] eqn:E.
  2,3: exfalso; assert (X : match exec 60 New ex_ops with Ok _ => true | _ => false end = true) by (vm_compute; reflexivity); now rewrite E in X.
  assert (RM : reachable m). { exists ex_ops, outs. split; auto. exact (exec_runs 60 _ _ _ _ E). }
  assert (X : match exec 60 New ex_ops with Ok (m, _) => (Get 60 m (near 8), Get 60 m (near 9), match Delete 60 m (near 8) with Ok _ => true | _ => false end, Delete 60 m (near 9))
    | _ => (Panic, Panic, false, Panic) end = (Ok None, Ok None, true, Hang)) by (vm_compute; reflexivity).
  rewrite E in X.
  assert (G : forall k, Get 60 m k = Ok None -> returns (fun f => Get f m k) None).
  { intros k EK. exists 60. intros f Hf. exact (leR_Ok _ _ _ (Get_mono _ _ _ _ Hf) EK). }
  pose proof (f_equal (fun p => fst (fst (fst p))) X) as X1. pose proof (f_equal (fun p => snd (fst (fst p))) X) as X2.
  pose proof (f_equal (fun p => snd (fst p)) X) as X3. cbn [fst snd] in X1, X2, X3. clear X.
  apply G in X1. apply G in X2. clear G.
  destruct (Delete 60 m (near 8)) as [m'| |] eqn:ED; try discriminate X3.
  assert (R : exists m', returns (fun f => Delete f m (near 8)) m').
  { exists m', 60. intros f Hf. exact (leR_Ok _ _ _ (Delete_mono _ _ _ _ Hf) ED). }
  destruct (art_map ex_ops m outs VO (exec_runs 60 _ _ _ _ E)) as (_ & HL).
  assert (K5 : has_key m (p20 ++ [5])) by exact (ex_key m (p20 ++ [5]) [108] HL eq_refl eq_refl).
  assert (K6 : has_key m (p20 ++ [6])) by exact (ex_key m (p20 ++ [6]) [110] HL eq_refl eq_refl).
  assert (L : lookalike m (near 9) (p20 ++ [6])).
  { assert (HK : forall k, has_key m k -> In k [p20 ++ [1; 2]; []; p20 ++ [2]; p20 ++ [3]; p20 ++ [4]; p20 ++ [5]; p20 ++ [6]]).
    { intros k (V & v & Gk). pose proof (returns_det _ _ _ Gk (HL k V)) as Z. apply keys_in. rewrite <- Z. discriminate. }
    split; [exact K6|].
    exists 20. split; [vm_compute; lia|]. split; [vm_compute; lia|]. split.
    - right. exists (p20 ++ [6]), (p20 ++ [5]).
      split; [exact K6|].
      split; [exact K5|].
      split; [discriminate|]. split; [exists [6]; reflexivity|]. split; [exists [5]; reflexivity|].
      intros (b & (x & Bx) & (y & By)). vm_compute in Bx, By. congruence.
    - split.
      + intros k1 K1 (x & Px). apply HK in K1. cbn [In] in K1.
        repeat (destruct K1 as [<-|K1]; [vm_compute in Px; first [discriminate Px|reflexivity]|]). contradiction.
      + intros i Hi (d & Hd & F).
        assert (D : d = 0 \/ d = 20 \/ 0 < d < 20) by lia. destruct D as [->|[->|D]].
        * do 9 (destruct i as [|i]; [reflexivity|]). lia.
        * assert (i = 20) by lia. subst i. reflexivity.
        * exfalso. destruct F as [F|(k1 & k2 & K1 & K2 & NE & P1 & P2 & NB)].
          { apply (f_equal (@length nat)) in F. rewrite firstn_length in F. change (length (p20 ++ [6])) with 21 in F. cbn [length] in F. lia. }
          apply NB. exists 7. 
          assert (W : firstn d (p20 ++ [6]) ++ [7] = firstn (S d) p20).
          { clear -D. do 20 (destruct d as [|d]; [first [lia|reflexivity]|]). lia. }
          rewrite W.
          assert (Q : forall k, has_key m k -> is_prefix (firstn d (p20 ++ [6])) k -> is_prefix (firstn (S d) p20) k).
          { intros k Hk Pk. apply HK in Hk. cbn [In] in Hk. 
            assert (P20 : forall z, is_prefix (firstn (S d) p20) (p20 ++ z)).
            { intros z. exists (skipn (S d) p20 ++ z). now rewrite app_assoc, firstn_skipn. }
            repeat (destruct Hk as [<-|Hk]; [first [apply P20|idtac]|]); try contradiction.
            exfalso. destruct Pk as (z & Pk). apply (f_equal (@length nat)) in Pk. rewrite app_length, firstn_length in Pk.
            change (length (p20 ++ [6])) with 21 in Pk. cbn [length] in Pk. lia. }
          auto. }
  exists m. split; [exact RM|]. split.
  - split; [exact X2|]. split; [apply C44_delete_diverges_iff; eauto|eauto].
  - split; [exact X1|]. split; [exact R|apply C44_delete_returns_iff; auto].
Qed.
