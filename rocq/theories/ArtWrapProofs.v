(** * ArtWrapProofs: in executions of fewer than 2^62 events the 64-bit words do not wrap. *)
From Verif Require Import Base BitsModel VecModel ArtNode ArtModel ArtSpec ArtConc ArtFine ArtWrap.

Definition low (B : N) (m : mem) : Prop := Forall (fun c => (c_ver c <= B)%N) (m_cells m).

Lemma low_le B B' m : (B <= B')%N -> low B m -> low B' m.
Proof. intros L. apply Forall_impl. intros c. lia. Qed.
Lemma low_get B m a w : low B m -> get_ver m a = Ok w -> (w <= B)%N.
Proof.
  unfold get_ver, idx. destruct (nth_error (m_cells m) a) as [c|] eqn:E; cbn; [|discriminate]. intros L X. injection X as <-.
  apply nth_error_In in E. exact (proj1 (Forall_forall _ _) L _ E).
Qed.
Lemma Forall_set_nth {A} (P : A -> Prop) x : forall l i, Forall P l -> P x -> Forall P (set_nth l i x).
Proof. induction l as [|y l IH]; intros [|i] F X; cbn; auto; inversion F; constructor; auto. Qed.
Lemma low_set_ver B m a w : low B m -> (w <= B)%N -> low B (set_ver m a w).
Proof.
  intros L W. unfold set_ver. destruct (nth_error (m_cells m) a) as [c|]; auto. apply Forall_set_nth; auto.
Qed.
Lemma low_put B m a n m' : low B m -> put_node m a n = Ok m' -> low B m'.
Proof.
  unfold put_node, idx. destruct (nth_error (m_cells m) a) as [c|] eqn:E; cbn; [|discriminate]. intros L X. injection X as <-.
  apply Forall_set_nth; auto. cbn. apply nth_error_In in E. exact (proj1 (Forall_forall _ _) L _ E).
Qed.
Lemma low_store B m l p m' : low B m -> store m l p = Ok m' -> low B m'.
Proof.
  intros L. destruct l as [|a i]; cbn [store].
  - intros X. injection X as <-. exact L.
  - destruct (get_node m a) as [n| |]; cbn; try discriminate. destruct (upd (n_children n) i (Some p)) as [cs| |]; cbn; try discriminate.
    intros X. eapply low_put; eauto.
Qed.
Lemma low_place B m l nn m' : low B m -> place m l nn = Ok m' -> low B m'.
Proof.
  intros L. unfold place, alloc. intros X. eapply low_store; [|exact X]. apply Forall_app. split; [exact L|]. constructor; [cbn; lia|constructor].
Qed.

(** What the steps that are shared with ArtConc.v do to the version words. *)
Lemma lift_low {A} B m o (r : res A) k m' p' : low B m -> lift m o r k = SGo m' p' ->
  (forall a, r = Ok a -> k a = SGo m' p' -> low (B + 3) m') -> low (B + 3) m'.
Proof.
  intros L H K. destruct r as [a| |]; cbn in H; [exact (K a eq_refl H)| |]; unfold crash in H; injection H as <- <-; eapply low_le; eauto; lia.
Qed.
Lemma go_low B m p m' p' : low B m -> go m p = SGo m' p' -> low (B + 3) m'.
Proof. intros L H. unfold go in H. injection H as <- <-. eapply low_le; eauto. lia. Qed.
Lemma vcas_low B m o a v ok bad m' p' : low B m -> vcas m o a v ok bad = SGo m' p' -> low (B + 3) m'.
Proof.
  intros L H. unfold vcas in H. eapply lift_low; eauto. intros w G X. cbv beta in X. destruct (N.eqb w v) eqn:E; [|eapply go_low; eauto].
  apply N.eqb_eq in E. subst v. injection X as <- <-. apply low_set_ver; [eapply low_le; eauto; lia|]. pose proof (low_get _ _ _ _ L G). lia.
Qed.
Lemma vunlock_low B m o a b p m' p' : low B m -> vunlock m o a b p = SGo m' p' -> low (B + 3) m'.
Proof.
  intros L H. unfold vunlock in H. eapply lift_low; eauto. intros w G X. cbv beta in X. injection X as <- <-. apply low_set_ver; [eapply low_le; eauto; lia|].
  pose proof (low_get _ _ _ _ L G). destruct b; lia.
Qed.

Lemma tstep_low B first nd m p m' p' : (forall o f v mu, p <> PWrite o f v mu) -> (forall o f v mu i c, p <> CWrite o f v mu i c) ->
  low B m -> tstep first nd m p = SGo m' p' -> low (B + 3) m'.
Proof.
  intros NW NC L H.
  assert (CR : forall o, crash m o = SGo m' p' -> low (B + 3) m') by (intros o X; unfold crash in X; injection X as <- <-; eapply low_le; eauto; lia).
  destruct p; cbn [tstep] in H;
  repeat match type of H with
    | SBlock = _ => discriminate H
    | go _ _ = _ => exact (go_low _ _ _ _ _ L H)
    | crash _ _ = _ => exact (CR _ H)
    | vcas _ _ _ _ _ _ = _ => exact (vcas_low _ _ _ _ _ _ _ _ _ L H)
    | vunlock _ _ _ _ _ = _ => exact (vunlock_low _ _ _ _ _ _ _ _ L H)
    | rlock _ _ _ _ _ = _ => unfold rlock in H
    | vcheck _ _ _ _ _ _ = _ => unfold vcheck in H
    | lift _ _ _ _ = _ => eapply lift_low; [exact L|exact H|]; clear H; intros ? ? H; cbv beta in H
    | match ?x with _ => _ end = _ => destruct x
    end; try (exfalso; eapply NW; reflexivity); try (exfalso; eapply NC; reflexivity).
Qed.

Lemma tri_low {A} B p m (x : res A) k m' x' : low B m -> tri p m x k = Some (m', x') ->
  (forall a, x = Ok a -> k a = Some (m', x') -> low (B + 3) m') -> low (B + 3) m'.
Proof.
  intros L H K. destruct x as [a| |]; cbn in H; [exact (K a eq_refl H)| |]; injection H as <- <-; eapply low_le; eauto; lia.
Qed.
Lemma same_low B m (x y : ft) m' : low B m -> Some (m, x) = Some (m', y) -> low (B + 3) m'.
Proof. intros L H. injection H as <- <-. eapply low_le; eauto. lia. Qed.

Lemma fgo_low B first m x m' x' : low B m -> fgo first m x = Some (m', x') -> low (B + 3) m'.
Proof.
  intros L H. assert (UP : forall k, low B k -> low (B + 3) k) by (intros k; apply low_le; lia).
  destruct x as [p|p a r|p [|(a, w) ws] fn|l c p]; cbn [fgo] in H.
  - destruct (reads p) as [(a, v)|].
    + eapply tri_low; eauto. cbv beta iota. intros n _ X. exact (same_low _ _ _ _ _ L X).
    + assert (T : (forall o f v mu, p <> PWrite o f v mu) -> (forall o f v mu i c, p <> CWrite o f v mu i c) ->
        match tstep first newNode4 m p with SGo m' p' => Some (m', TAt p') | SBlock => None end = Some (m', x') -> low (B + 3) m').
      { intros N1 N2 X. destruct (tstep first newNode4 m p) as [|m1 p1] eqn:E; [discriminate|]. injection X as <- <-. eapply tstep_low; eauto. }
      destruct p; try (apply T; [discriminate|discriminate|exact H]).
      * eapply tri_low; eauto. cbv beta iota. intros [(i, c)|] _ X; [exact (same_low _ _ _ _ _ L X)|].
        eapply tri_low; eauto. cbv beta iota. intros (ws, fn) _ Y. exact (same_low _ _ _ _ _ L Y).
      * eapply tri_low; eauto. cbv beta iota. intros (ws, fn) _ Y. exact (same_low _ _ _ _ _ L Y).
  - destruct r; try exact (same_low _ _ _ _ _ L H);
      (eapply tri_low; [exact L|exact H|]; cbv beta iota; intros n _ X; exact (same_low _ _ _ _ _ L X)).
  - destruct fn as [|l q|l nn|c l].
    + exact (same_low _ _ _ _ _ L H).
    + eapply tri_low; eauto. cbv beta iota. intros k E X. injection X as <- <-. apply UP. eapply low_store; eauto.
    + eapply tri_low; eauto. cbv beta iota. intros k E X. injection X as <- <-. apply UP. eapply low_place; eauto.
    + eapply tri_low; eauto. cbv beta iota. intros w E X. injection X as <- <-. apply low_set_ver; auto. pose proof (low_get _ _ _ _ L E). lia.
  - eapply tri_low; eauto. cbv beta iota. intros k E X. injection X as <- <-. apply UP.
    destruct (get_node m a) as [n| |]; cbn in E; try discriminate. eapply low_put; eauto.
  - eapply tri_low; eauto. cbv beta iota. intros k E X. injection X as <- <-. apply UP. eapply low_store; eauto.
Qed.

Lemma wrap_low B m : (B < two64)%N -> low B m -> wrap m = m.
Proof.
  intros LT L. unfold wrap. destruct m as [cs rt]. cbn [m_cells m_root] in *. f_equal. unfold low in L. cbn [m_cells] in L.
  induction L as [|c cs H L IH]; cbn [map]; [reflexivity|]. rewrite IH. f_equal. unfold wrap_cell, w64. rewrite N.mod_small by lia. now destruct c.
Qed.

Definition cap : N := 2 ^ 62.
Definition few (h : list ev) : Prop := (N.of_nat (length h) < cap)%N.

Lemma low_exec h s : fexec h s -> low (3 * N.of_nat (length h)) (fs_mem s).
Proof.
  induction 1 as [|h s e s' E IH ST].
  - cbn. unfold low. cbn [finit fs_mem New m_cells]. repeat constructor; cbn; lia.
  - rewrite app_length. cbn [length]. inversion ST; subst; cbn [fs_mem].
    + eapply low_le; [|exact IH]. lia.
    + eapply low_le; [|exact IH]. lia.
    + eapply low_le; [|eapply fgo_low; [exact IH|eassumption]]. lia.
Qed.

Lemma few_snoc h e : few (h ++ [e]) -> few h.
Proof. unfold few. rewrite app_length. cbn [length]. lia. Qed.
Lemma few_low h e : few (h ++ [e]) -> (3 * N.of_nat (length h) + 3 < two64)%N.
Proof. unfold few, cap, two64. rewrite app_length. cbn [length]. lia. Qed.

Theorem wrap_same h s : few h -> (wexec h s <-> fexec h s).
Proof.
  intros F. split; intros E.
  - induction E as [|h s e s' E IH ST]; [constructor|]. specialize (IH (few_snoc _ _ F)). econstructor; [exact IH|].
    inversion ST as [t o I V|t o r I|t first m' x' G]; subst; [now constructor|econstructor; eauto|].
    unfold wgo in G. destruct (fgo first (fs_mem s) (fs_thr s t)) as [(m1, x1)|] eqn:E1; [|discriminate]. injection G as <- <-.
    rewrite (wrap_low _ _ (few_low _ _ F)) by (eapply fgo_low; [apply low_exec; exact IH|exact E1]). econstructor; eauto.
  - induction E as [|h s e s' E IH ST]; [constructor|]. specialize (IH (few_snoc _ _ F)). econstructor; [exact IH|].
    inversion ST as [t o I V|t o r I|t first m' x' G]; subst; [now constructor|econstructor; eauto|].
    econstructor. unfold wgo. rewrite G. f_equal. f_equal. apply (wrap_low _ _ (few_low _ _ F)). eapply fgo_low; [apply low_exec; exact E|exact G].
Qed.
