(** * SurfBufValProofs: the values are at the end of the buffer, behind all other slices. *)
From Verif Require Import Base BitsModel VecModel SurfModel SurfIter SurfMarshal SurfMarshalProofs SurfBuf SurfBufSpec SurfBufProofs SurfBufTop SurfAlias SurfAliasProofs SurfAliasTop SurfBufVal SurfSize SurfSpec SurfTop SurfGetSpec.

(** ** The order of the slices *)
Section Order.
Variable m : bytes.
Lemma fromR_is o k p : fromR m o k = Ok p -> p = o + k /\ (o <= length m -> p <= length m).
Proof. unfold fromR. destruct (Nat.leb_spec k (length m - o)); [|discriminate]. intros E. apply OkI in E. subst p. split; auto. lia. Qed.
Definition below (b : nat) (r : ref) : Prop := r_off r + r_len r <= b.
(** Reading at [o] went on to [p] and made the slices [l]. *)
Definition ord (o p : nat) (l : list ref) : Prop := o <= p /\ (o <= length m -> p <= length m) /\ Forall (below p) l.
Ltac st H x := let E := fresh "E" in apply bindI in H as (x & E & H).
Lemma sl_end o a b r q : sliceR m o a b = Ok r -> b <= q -> below (o + q) r.
Proof. intros E L. apply sliceR_is in E as (-> & Lab). unfold below. cbn [r_off r_len]. lia. Qed.
Lemma ord_app o p q l l' : ord o p l -> ord p q l' -> ord o q (l ++ l').
Proof.
  intros (A1 & A2 & A3) (B1 & B2 & B3). split; [lia|]. split; [auto|]. apply Forall_app. split; auto. eapply Forall_impl; [|exact A3]. unfold below. intros a H. lia.
Qed.
Lemma ord_from o k p : fromR m o k = Ok p -> ord o p [].
Proof. intros E. apply fromR_is in E as (-> & L). split; [lia|]. split; auto. Qed.
Lemma rv_order o v p : rv_readR m o = Ok (v, p) -> ord o p (rv_refs v) /\ p = o + qr_size v.
Proof.
  unfold rv_readR. cbv zeta. intros A. st A nb. st A b1. st A blk. st A ws. destruct (Nat.eqb blk 0); [discriminate|]. st A lut. st A q. apply OkI in A. injection A as <- <-.
  apply fromR_is in E4 as (-> & L). unfold rv_refs. cbn [qr_bits qr_lut]. change (qr_size _) with (align (8 + numWords nb * 8 + (nb / blk + 1) * 4)).
  generalize dependent (nb / blk + 1). intros x E3 L. pose proof (align_bound (8 + numWords nb * 8 + x * 4)).
  split; [|reflexivity]. split; [lia|]. split; auto. constructor; [eapply sl_end; eauto; lia|]. constructor; [eapply sl_end; eauto; lia|constructor].
Qed.
Lemma sv_order o v p : sv_readR m o = Ok (v, p) -> ord o p (sv_refs v).
Proof.
  unfold sv_readR. cbv zeta. intros A. st A nb. st A b1. st A blk. st A ws. st A lut. st A q. apply OkI in A. injection A as <- <-.
  apply fromR_is in E4 as (-> & L). unfold sv_refs. cbn [qs_bits qs_lut]. pose proof (align_bound (8 + numWords nb * 8 + (blk / 64 + 1) * 4)).
  split; [lia|]. split; auto. constructor; [eapply sl_end; eauto; lia|]. constructor; [eapply sl_end; eauto; lia|constructor].
Qed.
Lemma lab_order o v p : lab_readR m o = Ok (v, p) -> ord o p [v].
Proof.
  unfold lab_readR. intros A. st A n. st A l. st A q. apply OkI in A. injection A as <- <-. apply fromR_is in E1 as (-> & L). pose proof (align_bound (4 + n)).
  split; [lia|]. split; auto. constructor; [|constructor]. eapply sl_end; eauto. lia.
Qed.
Lemma xv_order o v p : xv_readR m o = Ok (v, p) -> ord o p (xv_refs v).
Proof.
  unfold xv_readR. intros A. st A nb. st A tb. st A t. st A b1. st A hl. st A b2. st A rl. apply bindI in A as ((ws & cu) & W & A). st A q. apply OkI in A. injection A as <- <-.
  apply fromR_is in E6 as (-> & L). unfold xv_refs. cbn [qx_bits]. pose proof (align_bound cu). split; [lia|]. split; auto. destruct (suffixType_eqb t NoneSuffix).
  - apply OkI in W. injection W as <- <-. constructor.
  - st W w. apply OkI in W. injection W as <- <-. constructor; [|constructor]. eapply sl_end; eauto. lia.
Qed.
Lemma pv_order o v p : pv_readR m o = Ok (v, p) -> ord o p (pv_refs v).
Proof.
  unfold pv_readR. intros A. apply bindI in A as ((has & o1) & R1 & A). st A ol. st A b2. st A dl. st A os. st A ds. st A q. apply OkI in A. injection A as <- <-.
  destruct (rv_order _ _ _ R1) as ((X1 & X2 & X3) & E5). apply fromR_is in E4 as (-> & L). unfold pv_refs. cbn [qp_has qp_offsets qp_data].
  destruct (sliceR_is _ _ _ _ _ E2) as (Eos & _). destruct (sliceR_is _ _ _ _ _ E3) as (Eds & _). rewrite Eos, Eds in *. cbn [r_len] in *.
  set (k := qr_size has + 8 + (8 + ol - 8 + (8 + ol + dl - (8 + ol)))) in *. pose proof (align_bound k) as AB.
  split; [lia|]. split; auto. apply Forall_app. split; [eapply Forall_impl; [|exact X3]; unfold below; intros a Ha; lia|].
  constructor; [|constructor; [|constructor]]; unfold below; cbn [r_off r_len]; lia.
Qed.
Definition ld_refs (v : ldR) : list ref := rv_refs (qd_label v) ++ rv_refs (qd_hasChild v) ++ rv_refs (qd_isPrefix v) ++ xv_refs (qd_suffixes v) ++ pv_refs (qd_prefix v).
Definition ls_refs (v : lsR) : list ref := [qe_label v] ++ rv_refs (qe_hasChild v) ++ sv_refs (qe_louds v) ++ xv_refs (qe_suffixes v) ++ pv_refs (qe_prefix v).
Lemma ord_end o b l k p : o <= length m -> ord o b l -> (length m - o) - (length m - b) <= k -> fromR m o k = Ok p -> ord o p l.
Proof.
  intros L (A1 & A2 & A3) K E. apply fromR_is in E as (-> & E). specialize (A2 L). split; [lia|]. split; auto. eapply Forall_impl; [|exact A3]. unfold below. intros a H. lia.
Qed.
Lemma ld_order o v p : o <= length m -> ld_readR m o = Ok (v, p) -> ord o p (ld_refs v).
Proof.
  unfold ld_readR. intros L A. st A h. st A b0. apply bindI in A as ((x1 & b1) & R1 & A). apply bindI in A as ((x2 & b2) & R2 & A). apply bindI in A as ((x3 & b3) & R3 & A).
  apply bindI in A as ((x4 & b4) & R4 & A). apply bindI in A as ((x5 & b5) & R5 & A). st A q. apply OkI in A. injection A as <- <-. unfold ld_refs. cbn [qd_label qd_hasChild qd_isPrefix qd_suffixes qd_prefix].
  apply ord_from in E0. apply rv_order in R1 as (R1 & _), R2 as (R2 & _), R3 as (R3 & _). apply xv_order in R4. apply pv_order in R5.
  apply (ord_end o b5 _ (align (length m - o - (length m - b5)))); [exact L| |apply align_bound|exact E1]. pose proof (ord_app _ _ _ _ _ E0 (ord_app _ _ _ _ _ R1 (ord_app _ _ _ _ _ R2 (ord_app _ _ _ _ _ R3 (ord_app _ _ _ _ _ R4 R5))))) as Z. exact Z.
Qed.
Lemma ls_order o v p : o <= length m -> ls_readR m o = Ok (v, p) -> ord o p (ls_refs v).
Proof.
  unfold ls_readR. intros L A. st A h. st A a0. st A st0. st A a1. st A dn. st A a2. st A dc. st A b0. apply bindI in A as ((x1 & b1) & R1 & A). apply bindI in A as ((x2 & b2) & R2 & A). apply bindI in A as ((x3 & b3) & R3 & A).
  apply bindI in A as ((x4 & b4) & R4 & A). apply bindI in A as ((x5 & b5) & R5 & A). st A q. apply OkI in A. injection A as <- <-. unfold ls_refs. cbn [qe_label qe_hasChild qe_louds qe_suffixes qe_prefix].
  apply ord_from in E0, E2, E4, E6. apply lab_order in R1. apply rv_order in R2 as (R2 & _). apply sv_order in R3. apply xv_order in R4. apply pv_order in R5.
  apply (ord_end o b5 _ (align (length m - o - (length m - b5)))); [exact L| |apply align_bound|exact E7].
  pose proof (ord_app _ _ _ _ _ E0 (ord_app _ _ _ _ _ E2 (ord_app _ _ _ _ _ E4 (ord_app _ _ _ _ _ E6 (ord_app _ _ _ _ _ R1 (ord_app _ _ _ _ _ R2 (ord_app _ _ _ _ _ R3 (ord_app _ _ _ _ _ R4 R5)))))))) as Z. exact Z.
Qed.
(** The values of the dense levels are at [b + 8], those of the sparse levels behind them. *)
Lemma vv_order o v p : vv_readR m o = Ok (v, p) -> o <= length m -> r_off (qv_bytes v) = o + 8 /\ p = o + align (8 + r_len (qv_bytes v)) /\ p <= length m.
Proof.
  unfold vv_readR. intros A L. st A sz. st A b1. st A vs. st A bs. st A q. apply OkI in A. injection A as <- <-. apply fromR_is in E3 as (-> & E3). apply sliceR_is in E2 as (-> & _). cbn [qv_bytes r_off r_len].
  replace (8 + (8 + sz - 8)) with (8 + sz) by lia. auto.
Qed.
Theorem refs_order f : unmarshalR m = Ok f -> exists b, Forall (below b) (ld_refs (qf_ld f) ++ ls_refs (qf_ls f)) /\
  r_off (qv_bytes (qf_dv f)) = b + 8 /\ r_off (qv_bytes (qf_sv f)) = b + align (8 + r_len (qv_bytes (qf_dv f))) + 8 /\
  b + align (8 + r_len (qv_bytes (qf_dv f))) + align (8 + r_len (qv_bytes (qf_sv f))) <= length m.
Proof.
  unfold unmarshalR. intros A. apply bindI in A as ((x1 & b1) & R1 & A). apply bindI in A as ((x2 & b2) & R2 & A). apply bindI in A as ((x3 & b3) & R3 & A). apply bindI in A as ((x4 & b4) & R4 & A). apply OkI in A. subst f.
  cbn [qf_ld qf_ls qf_dv qf_sv]. apply ld_order in R1; [|lia]. destruct R1 as (X1 & X2 & X3). specialize (X2 ltac:(lia)). apply ls_order in R2; auto. destruct R2 as (Y1 & Y2 & Y3). specialize (Y2 X2).
  apply vv_order in R3 as (Z1 & Z2 & Z3); auto. apply vv_order in R4 as (W1 & W2 & W3); auto. exists b2. split; [|split; [auto|split; lia]].
  apply Forall_app. split; auto. eapply Forall_impl; [|exact X3]. unfold below. intros a H. lia.
Qed.
End Order.

(** ** Changes behind the start of the values *)
Lemma view_behind m m' f b : Forall (below b) (ld_refs (qf_ld f) ++ ls_refs (qf_ls f)) -> firstn b m' = firstn b m ->
  surf_view m' f = mkSurf (ld_setValues (s_ld (surf_view m f)) (vv_view m' (qf_dv f))) (ls_setValues (s_ls (surf_view m f)) (vv_view m' (qf_sv f))).
Proof.
  intros FA E. set (g := mkSurfR (qf_ld f) (qf_ls f) (mkVVR (mkRef 0 0) 0) (mkVVR (mkRef 0 0) 0)).
  assert (X : surf_view m' g = surf_view m g).
  { apply unused_bytes. intros i (r & Hr & Hi). assert (L : i < b).
    { unfold refs in Hr. cbn [g qf_ld qf_ls qf_dv qf_sv qv_bytes] in Hr. rewrite Forall_forall in FA.
      assert (I : In r (ld_refs (qf_ld f) ++ ls_refs (qf_ls f)) \/ In r [mkRef 0 0; mkRef 0 0]).
      { unfold ld_refs, ls_refs. rewrite !in_app_iff in *. tauto. }
      destruct I as [I|[<-|[<-|[]]]]; [specialize (FA r I); unfold below in FA; lia| |]; cbn in Hi; lia. }
    apply (f_equal (fun l => nth_error l i)) in E. rewrite !nth_firstn in E. destruct (Nat.ltb_spec i b); [auto|lia]. }
  apply (f_equal (fun s => mkSurf (ld_setValues (s_ld s) (vv_view m' (qf_dv f))) (ls_setValues (s_ls s) (vv_view m' (qf_sv f))))) in X. exact X.
Qed.
