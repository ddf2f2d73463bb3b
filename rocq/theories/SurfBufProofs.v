(** * SurfBufProofs: the filter in the buffer is the one with copies. *)
From Verif Require Import Base BitsModel VecModel SurfModel SurfMarshal SurfMarshalProofs SurfBuf SurfAlias SurfAliasProofs SurfSize.

Lemma skipn_twice {A} a : forall b (l : list A), skipn a (skipn b l) = skipn (b + a) l.
Proof. intros b. induction b as [|b IH]; intros l; cbn [Nat.add]; auto. destruct l as [|x l]; [now rewrite !skipn_nil|]. cbn [skipn]. apply IH. Qed.

Section Mem.
Variable m : bytes.
Lemma sliceR_ok o a b : slice (skipn o m) a b = mapres (ref_bytes m) (sliceR m o a b).
Proof.
  unfold slice, sliceR. rewrite skipn_length. destruct (_ && _); cbn [mapres]; auto. unfold ref_bytes. cbn [r_len r_off]. now rewrite skipn_twice.
Qed.
Lemma fromR_ok o k : slice_from (skipn o m) k = mapres (fun o' => skipn o' m) (fromR m o k).
Proof. unfold slice_from, fromR. rewrite skipn_length. destruct (Nat.leb _ _); cbn [mapres]; auto. now rewrite skipn_twice. Qed.
Lemma bind_map {A B C} (x : res A) (f : A -> B) (g : B -> res C) : bind (mapres f x) g = bind x (fun a => g (f a)).
Proof. destruct x; reflexivity. Qed.
Lemma map_bind {A B C} (x : res A) (g : A -> res B) (f : B -> C) : mapres f (bind x g) = bind x (fun a => mapres f (g a)).
Proof. destruct x; reflexivity. Qed.
Lemma bind_ext {A B} (x : res A) (f g : A -> res B) : (forall a, f a = g a) -> bind x f = bind x g.
Proof. intros H. destruct x; cbn; auto. Qed.
Definition both {A B} (f : A -> B) (p : A * nat) : B * bytes := (f (fst p), skipn (snd p) m).

Ltac go := repeat first
  [ rewrite sliceR_ok | rewrite fromR_ok | rewrite bind_map | rewrite map_bind | (apply bind_ext; intros ?) ].

Lemma vv_readR_ok o : vv_read (skipn o m) = mapres (both (vv_view m)) (vv_readR m o).
Proof. unfold vv_read, vv_readR. go. reflexivity. Qed.
Lemma sv_readR_ok o : sv_read (skipn o m) = mapres (both (sv_view m)) (sv_readR m o).
Proof. unfold sv_read, sv_readR. cbv zeta. go. reflexivity. Qed.
Lemma rv_readR_ok o : rv_read (skipn o m) = mapres (both (rv_view m)) (rv_readR m o).
Proof. unfold rv_read, rv_readR. cbv zeta. go. destruct (Nat.eqb _ 0); cbn [mapres]; auto. go. reflexivity. Qed.
Lemma lab_readR_ok o : lab_read (skipn o m) = mapres (both (ref_bytes m)) (lab_readR m o).
Proof. unfold lab_read, lab_readR. go. reflexivity. Qed.
Lemma sliceR_len o a b r : sliceR m o a b = Ok r -> length (ref_bytes m r) = r_len r.
Proof.
  unfold sliceR. destruct (Nat.leb a b) eqn:E1; cbn [andb]; [|discriminate]. destruct (Nat.leb b _) eqn:E2; [|discriminate]. intros E. apply OkI in E. subst r. apply Nat.leb_le in E1, E2.
  unfold ref_bytes. cbn [r_len r_off]. rewrite firstn_length, skipn_length. lia.
Qed.
Lemma bind_ok {A B} (x : res A) (f g : A -> res B) : (forall a, x = Ok a -> f a = g a) -> bind x f = bind x g.
Proof. intros H. destruct x; cbn; auto. Qed.
Lemma pv_readR_ok o : pv_read (skipn o m) = mapres (both (pv_view m)) (pv_readR m o).
Proof.
  unfold pv_read, pv_readR. cbv zeta. rewrite rv_readR_ok. go. destruct a as [has o1]. unfold both. cbn [fst snd].
  do 3 (rewrite ?fromR_ok, ?bind_map, ?map_bind; apply bind_ext; intros ?).
  rewrite sliceR_ok, bind_map, map_bind. apply bind_ok. intros os E1. rewrite sliceR_ok, bind_map, map_bind. apply bind_ok. intros ds E2.
  apply sliceR_len in E1, E2. unfold pv_size, pv_rawSize. cbn [pv_has pv_offsets pv_data]. rewrite E1, E2. 
  replace (rv_size (rv_view m has)) with (qr_size has) by reflexivity. go. reflexivity.
Qed.
Lemma xv_readR_ok o : xv_read (skipn o m) = mapres (both (xv_view m)) (xv_readR m o).
Proof.
  unfold xv_read, xv_readR. go. destruct (suffixType_eqb _ NoneSuffix); cbn [bind]; [go; reflexivity|].
  destruct (sliceR _ _ _ _) as [w| |]; cbn [bind mapres]; auto. go. reflexivity.
Qed.
Lemma ld_readR_ok o : ld_read (skipn o m) = mapres (both (ld_view m)) (ld_readR m o).
Proof.
  unfold ld_read, ld_readR.
  repeat first [ rewrite rv_readR_ok | rewrite xv_readR_ok | rewrite pv_readR_ok | rewrite sliceR_ok | rewrite fromR_ok | rewrite bind_map | rewrite map_bind
    | (apply bind_ext; let p := fresh "p" in intros p; match type of p with prod _ _ => destruct p | _ => idtac end; unfold both; cbn [fst snd]) | rewrite !skipn_length ]. reflexivity.
Qed.
Lemma ls_readR_ok o : ls_read (skipn o m) = mapres (both (ls_view m)) (ls_readR m o).
Proof.
  unfold ls_read, ls_readR.
  repeat first [ rewrite rv_readR_ok | rewrite sv_readR_ok | rewrite lab_readR_ok | rewrite xv_readR_ok | rewrite pv_readR_ok | rewrite sliceR_ok | rewrite fromR_ok | rewrite bind_map | rewrite map_bind
    | (apply bind_ext; let p := fresh "p" in intros p; match type of p with prod _ _ => destruct p | _ => idtac end; unfold both; cbn [fst snd]) | rewrite !skipn_length ]. reflexivity.
Qed.
Theorem unmarshalR_ok : unmarshal m = mapres (surf_view m) (unmarshalR m).
Proof.
  unfold unmarshal, unmarshalR. change m with (skipn 0 m) at 1.
  repeat first [ rewrite ld_readR_ok | rewrite ls_readR_ok | rewrite vv_readR_ok | rewrite bind_map | rewrite map_bind
    | (apply bind_ext; let p := fresh "p" in intros p; match type of p with prod _ _ => destruct p | _ => idtac end; unfold both; cbn [fst snd]) ]. reflexivity.
Qed.
End Mem.
