(** * Point lookup computes the trie lookup: walking the levels. *)
From Coq Require Import Sorted.
From Verif Require Import Base BitsModel BitsFacts VecModel VecProofs VecProofs2 SurfModel SurfTrie SurfSuffix SurfBuild SurfDense SurfEnc SurfBuildTop SurfGet.
Ltac Zify.zify_post_hook ::= Z.div_mod_to_equations.

(* ------------------------------------------------------------------ *)
(** ** Levels *)
Lemma linked_level NSS : linked NSS -> forall l L, nth_error NSS l = Some L ->
  match nth_error NSS (S l) with Some L' => L' = flat_map children L | None => flat_map children L = [] end.
Proof.
  induction 1 as [L0 H|L0 L' R H Hl IH]; intros l L E.
  - destruct l as [|[|l]]; cbn in *; try discriminate. now inversion E; subst.
  - destruct l as [|l]; cbn [nth_error] in *; [inversion E; subst; auto|]. now apply IH.
Qed.

Lemma concat_firstn_S {A} (NSS : list (list A)) l L : nth_error NSS l = Some L -> concat (firstn (S l) NSS) = concat (firstn l NSS) ++ L.
Proof.
  revert NSS. induction l as [|l IH]; intros [|N NSS] E; try discriminate.
  - cbn in *. inversion E; subst. apply app_nil_r.
  - cbn [nth_error] in E. change (firstn (S (S l)) (N :: NSS)) with (N :: firstn (S l) NSS). cbn [concat]. rewrite (IH _ E). cbn [firstn concat]. apply app_assoc.
Qed.

Lemma firstn_skipn_le {A} (l : list A) a b : a <= b -> firstn b l = firstn a l ++ firstn (b - a) (skipn a l).
Proof.
  revert l b. induction a as [|a IH]; intros l b H; [cbn; now rewrite Nat.sub_0_r|].
  destruct b as [|b]; [lia|]. destruct l as [|x l]; [cbn; now rewrite firstn_nil|]. cbn [firstn skipn app]. rewrite (IH l b) by lia. f_equal.
Qed.

Lemma filter_map_length {A B} (f : A -> B) l : length (map f l) = length l.
Proof. apply map_length. Qed.

Section Levels.
Variable NSS : list (list tnode).
Hypothesis LK : linked NSS.
Hypothesis RT : exists root, nth_error NSS 0 = Some [root].

Definition at_node (l : nat) (P : list tnode) (n : tnode) (Q : list tnode) : Prop := nth_error NSS l = Some (P ++ n :: Q).
Definition nid (l : nat) (P : list tnode) : nat := length (concat (firstn l NSS)) + length P.

Lemma at_dense h l P n Q : at_node l P n Q -> l < h ->
  concat (firstn h NSS) = (concat (firstn l NSS) ++ P) ++ n :: (Q ++ concat (firstn (h - S l) (skipn (S l) NSS))).
Proof.
  intros E L. rewrite (firstn_skipn_le NSS (S l) h) by lia. rewrite concat_app, (concat_firstn_S _ _ _ E). rewrite <- !app_assoc. reflexivity.
Qed.

Lemma at_sparse h l P n Q : at_node l P n Q -> h <= l ->
  concat (skipn h NSS) = (concat (firstn (l - h) (skipn h NSS)) ++ P) ++ n :: (Q ++ concat (skipn (S l) NSS)) /\
  concat (firstn l NSS) = concat (firstn h NSS) ++ concat (firstn (l - h) (skipn h NSS)).
Proof.
  intros E L. assert (E2 : concat (firstn l NSS) = concat (firstn h NSS) ++ concat (firstn (l - h) (skipn h NSS))).
  { rewrite (firstn_skipn_le NSS h l) by lia. apply concat_app. }
  split; auto. apply (app_inv_head (concat (firstn h NSS))). rewrite <- concat_app, firstn_skipn.
  rewrite !app_assoc. rewrite <- E2. rewrite <- (firstn_skipn (S l) NSS) at 1. rewrite concat_app, (concat_firstn_S _ _ _ E).
  rewrite <- !app_assoc. reflexivity.
Qed.

Lemma in_at n : In n (concat NSS) -> exists l P Q, at_node l P n Q.
Proof.
  intros H. apply in_concat in H as (L & H1 & H2). apply In_nth_error in H1 as (l & H1). apply in_split in H2 as (P & Q & ->). exists l, P, Q. exact H1.
Qed.

Lemma at_in l P n Q : at_node l P n Q -> In n (concat NSS).
Proof. intros E. apply in_concat. exists (P ++ n :: Q). split; [eapply nth_error_In; eauto|]. apply in_or_app. right. left. auto. Qed.

Lemma child_at l P n Q A it B : at_node l P n Q -> items n = A ++ it :: B -> hasc it = true ->
  exists P' Q', at_node (S l) P' (mkchild it) Q' /\
    nid (S l) P' = 1 + length (filter hasc (flat_map items (concat (firstn l NSS) ++ P) ++ A)) /\
    P' = map mkchild (filter hasc (flat_map items P ++ A)).
Proof.
  intros E EI HC. pose proof (linked_level NSS LK l _ E) as LV.
  assert (FC : flat_map children (P ++ n :: Q) = map mkchild (filter hasc (flat_map items P ++ A)) ++ mkchild it :: map mkchild (filter hasc (B ++ flat_map items Q))).
  { rewrite flat_map_children, flat_map_app. cbn [flat_map]. rewrite EI.
    replace (flat_map items P ++ (A ++ it :: B) ++ flat_map items Q) with ((flat_map items P ++ A) ++ it :: (B ++ flat_map items Q)) by (rewrite <- !app_assoc; reflexivity).
    rewrite filter_app. cbn [filter]. rewrite HC. rewrite map_app. reflexivity. }
  destruct (nth_error NSS (S l)) as [L'|] eqn:E'.
  2:{ exfalso. rewrite LV in FC. destruct (map mkchild (filter hasc (flat_map items P ++ A))); discriminate. }
  exists (map mkchild (filter hasc (flat_map items P ++ A))), (map mkchild (filter hasc (B ++ flat_map items Q))).
  assert (AT : at_node (S l) (map mkchild (filter hasc (flat_map items P ++ A))) (mkchild it) (map mkchild (filter hasc (B ++ flat_map items Q)))).
  { unfold at_node. rewrite E', LV, FC. reflexivity. }
  split; auto. split; auto.
  unfold nid. rewrite map_length.
  (* nodes of levels 0..l: the root and the children of levels 0..l-1 *)
  assert (CN : length (concat (firstn (S l) NSS)) = 1 + length (filter hasc (flat_map items (concat (firstn l NSS))))).
  { destruct RT as (root & ER). destruct l as [|l].
    - destruct NSS as [|N0 R]; [discriminate|]. cbn in ER. inversion ER; subst. reflexivity.
    - pose proof (linked_firstn NSS LK l) as LF. rewrite flat_map_children in LF. apply (f_equal (@length _)) in LF. rewrite map_length in LF. rewrite LF.
      destruct NSS as [|N0 R]; [discriminate|]. cbn in ER. inversion ER; subst. cbn [firstn tl concat app length]. reflexivity. }
  rewrite CN. rewrite flat_map_app, <- app_assoc. rewrite (filter_app _ (flat_map items (concat _))), app_length. lia.
Qed.
End Levels.

(* ------------------------------------------------------------------ *)
Section Walk.
Variable fp : bytes -> N.
Variable c : config.
Hypothesis CO : cfg_ok c.
Variables (NSS : list (list tnode)) (h : nat) (s : surf).
Hypothesis SR : surf_rep fp c NSS h s.
Hypothesis LO : Forall (leaf_ok c) (leaves (concat NSS)).
Notation at_node := (at_node NSS).
Notation nid := (nid NSS).

Lemma sr_wf : Forall nwf (concat NSS). Proof. apply SR. Qed.
Lemma sr_linked : linked NSS. Proof. apply SR. Qed.
Lemma sr_root : exists root, nth_error NSS 0 = Some [root]. Proof. apply SR. Qed.
Lemma sr_h : h < length NSS. Proof. apply SR. Qed.
Lemma sr_ld : ld_rep fp c (s_ld s) h (concat (firstn h NSS)). Proof. apply SR. Qed.
Lemma sr_ls : ls_rep fp c (s_ls s) (length NSS) h (concat (firstn h NSS)) (concat (skipn h NSS)). Proof. apply SR. Qed.

Lemma concat_split : concat NSS = concat (firstn h NSS) ++ concat (skipn h NSS).
Proof. rewrite <- concat_app. now rewrite firstn_skipn. Qed.
Lemma leaves_app X Y : leaves (X ++ Y) = leaves X ++ leaves Y.
Proof. unfold leaves. now rewrite flat_map_app, filter_app. Qed.

Lemma wf_dense : Forall nwf (concat (firstn h NSS)).
Proof. pose proof sr_wf as W. rewrite concat_split in W. now apply Forall_app in W. Qed.
Lemma wf_sparse : Forall nwf (concat (skipn h NSS)).
Proof. pose proof sr_wf as W. rewrite concat_split in W. now apply Forall_app in W. Qed.
Lemma lo_dense : Forall (leaf_ok c) (leaves (concat (firstn h NSS))).
Proof. pose proof LO as W. rewrite concat_split, leaves_app in W. now apply Forall_app in W. Qed.
Lemma lo_sparse : Forall (leaf_ok c) (leaves (concat (skipn h NSS))).
Proof. pose proof LO as W. rewrite concat_split, leaves_app in W. now apply Forall_app in W. Qed.

Lemma at_wf l P n Q : at_node l P n Q -> nwf n.
Proof. intros H. pose proof sr_wf as W. rewrite Forall_forall in W. apply W. eapply at_in; eauto. Qed.

(** Only the root can hold a single key. *)
Lemma at_two l P n Q : at_node l P n Q -> 2 <= length (tn_kvs n) \/ (l = 0 /\ P = []).
Proof.
  intros E. destruct sr_root as (root & ER). destruct l as [|l].
  - right. split; auto. unfold SurfGet2.at_node in E. rewrite ER in E. inversion E. destruct P as [|p P]; auto. cbn in H0. inversion H0. destruct P; discriminate.
  - left. destruct (nth_error NSS l) as [L|] eqn:EL.
    2:{ apply nth_error_None in EL. unfold SurfGet2.at_node in E. assert (nth_error NSS (S l) <> None) by congruence. apply nth_error_Some in H. lia. }
    pose proof (linked_level NSS sr_linked l L EL) as LV. unfold SurfGet2.at_node in E. rewrite E in LV.
    assert (I : In n (flat_map children L)) by (rewrite <- LV; apply in_or_app; right; left; auto).
    apply in_flat_map in I as (m & Hm & I). unfold children in I. apply in_map_iff in I as (x & <- & I). apply filter_In in I as [_ I].
    unfold mkchild, mknode. cbn [tn_kvs]. unfold hasc in I. apply Nat.ltb_lt in I. lia.
Qed.

Lemma at_items_two l P n Q : at_node l P n Q -> 2 <= length (items n) \/ (l = 0 /\ P = []).
Proof. intros E. destruct (at_two l P n Q E) as [H|H]; auto. left. apply items_two; auto. eapply at_wf; eauto. Qed.

Lemma at_child l P n Q A it B : at_node l P n Q -> items n = A ++ it :: B -> hasc it = true ->
  exists P' Q', at_node (S l) P' (mkchild it) Q' /\
    nid (S l) P' = 1 + length (filter hasc (flat_map items (concat (firstn l NSS) ++ P) ++ A)) /\
    P' = map mkchild (filter hasc (flat_map items P ++ A)).
Proof. apply child_at; [apply sr_linked|apply sr_root]. Qed.

Lemma child_pd n it : In it (items n) -> tn_pd (mkchild it) = S (tn_d n).
Proof. intros H. unfold mkchild, mknode. cbn [tn_pd]. f_equal. now apply item_depth. Qed.


Notation ld := (s_ld s).
Notation ls := (s_ls s).

Lemma alook_split n q it : alook n q = Some it -> exists A B, items n = A ++ it :: B /\ i_term it = false /\ i_label it = nth (tn_d n) q 0.
Proof.
  intros H. destruct (find_split _ _ _ H) as (A & B & E & F & _). apply andb_prop in F as [F1 F2]. apply Nat.eqb_eq in F2.
  exists A, B. repeat split; auto. unfold noterm in F1. now destruct (i_term it).
Qed.

Section Key.
Variable q : bytes.
Hypothesis Hq : wf_bytes q = true.

Lemma key_byte d : nth d q 0 < 256.
Proof.
  destruct (Nat.lt_ge_cases d (length q)) as [L|L]; [|rewrite nth_overflow by auto; lia].
  unfold wf_bytes in Hq. rewrite forallb_forall in Hq. specialize (Hq (nth d q 0) (nth_In _ _ L)). unfold is_byte in Hq. now apply Nat.ltb_lt in Hq.
Qed.

Lemma prefix_depth n : nwf n -> tn_pd n + length (nprefix n) = tn_d n.
Proof. intros W. rewrite nprefix_length by auto. pose proof (w_pd n W). lia. Qed.

Lemma dense_loop todo : forall l P n Q, at_node l P n Q -> l + todo = h -> tn_pd n <= length q ->
  match ld_get_loop fp todo ld q (nid l P) (tn_pd n) with
  | Ok (DAnswer v) => forall f, length q < f + tn_pd n -> aget fp c f todo n q = v
  | Ok (DCont id d) => exists P' n' Q', at_node h P' n' Q' /\ id = nid h P' /\ d = tn_pd n' /\ d <= length q /\
      forall f, length q < f + tn_pd n -> exists f', length q < f' + tn_pd n' /\ aget fp c f todo n q = aget fp c f' 0 n' q
  | _ => False
  end.
Proof.
  induction todo as [|todo IH]; intros l P n Q E HL HP.
  { cbn [ld_get_loop]. assert (l = h) by lia. subst l. exists P, n, Q. repeat split; auto. intros f Hf. exists f. auto. }
  pose proof (at_wf _ _ _ _ E) as W.
  assert (AD := at_dense NSS h l P n Q E ltac:(lia)).
  pose proof sr_ld as R. pose proof wf_dense as WD. pose proof lo_dense as LD. rewrite AD in R, WD, LD.
  assert (NI : nid l P = length (concat (firstn l NSS) ++ P)) by (unfold SurfGet2.nid; now rewrite app_length).
  cbn [ld_get_loop]. rewrite NI. rewrite (d_checkPrefix fp c ld h _ _ n q R (tn_pd n) HP). cbn [bind].
  destruct (is_prefixb (nprefix n) (skipn (tn_pd n) q)) eqn:PX.
  2:{ cbn [negb]. intros f Hf. destruct f as [|f]; [lia|]. cbn [aget]. now rewrite PX. }
  cbn [negb]. rewrite prefix_depth by auto.
  destruct (Nat.leb_spec (length q) (tn_d n)) as [Le|Gt].
  - rewrite (d_isPrefix fp c ld h _ _ n R). cbn [bind]. unfold nterm. rewrite existsb_find.
    destruct (find i_term (items n)) as [it|] eqn:F.
    + destruct (find_split _ _ _ F) as (A & B & EI & T & _).
      assert (A = []).
      { destruct A as [|a A]; auto. exfalso. cbn [app] in EI. pose proof (tail_noterm n a _ EI) as TT. rewrite Forall_forall in TT.
        rewrite (TT it) in T; [discriminate|]. apply in_or_app. right. left. auto. }
      subst A. cbn [app] in EI. rewrite (d_suffixPos_term fp c ld h _ _ n R WD it B EI T). cbn [bind].
      assert (HT : hasc it = false).
      { destruct (hasc it) eqn:X; auto. rewrite (item_hasc_noterm n it) in T; [discriminate| |auto]. rewrite EI. left. auto. }
      pose proof (leaves_split (concat (firstn l NSS) ++ P) (Q ++ concat (firstn (h - S l) (skipn (S l) NSS))) n [] it B EI HT) as LS. rewrite app_nil_r in LS.
      rewrite (check_value_spec fp c CO _ _ _ _ it q (tn_d n + 1) (ldr_suf _ _ _ _ _ R) (ldr_val _ _ _ _ _ R) LD LS). cbn [bind].
      intros f Hf. destruct f as [|f]; [lia|]. cbn [aget]. rewrite PX. destruct (Nat.leb_spec (length q) (tn_d n)); [|lia].
      unfold aend_dense. now rewrite F.
    + intros f Hf. destruct f as [|f]; [lia|]. cbn [aget]. rewrite PX. destruct (Nat.leb_spec (length q) (tn_d n)); [|lia].
      unfold aend_dense. now rewrite F.
  - rewrite (idx_in q (tn_d n) 0 Gt). cbn [bind].
    rewrite (d_label fp c ld h _ _ n R (nth (tn_d n) q 0) (key_byte _)). cbn [bind]. rewrite existsb_find.
    change (find (fun it : item => noterm it && Nat.eqb (i_label it) (nth (tn_d n) q 0)) (items n)) with (alook n q).
    assert (AG : forall f, length q < S f + tn_pd n -> aget fp c (S f) (S todo) n q = match alook n q with
        | None => None
        | Some it => if hasc it then aget fp c f todo (mkchild it) q else leafres fp c it q (tn_d n + 1) end).
    { intros f Hf. cbn [aget]. rewrite PX. destruct (Nat.leb_spec (length q) (tn_d n)); [lia|]. reflexivity. }
    destruct (alook n q) as [it|] eqn:AL.
    2:{ cbn [negb]. intros f Hf. destruct f as [|f]; [lia|]. now apply AG. }
    cbn [negb]. destruct (alook_split n q it AL) as (A & B & EI & T & LB).
    rewrite (d_hasc fp c ld h _ _ n R (nth (tn_d n) q 0) (key_byte _)). cbn [bind].
    assert (EH : existsb (fun it => noterm it && hasc it && Nat.eqb (i_label it) (nth (tn_d n) q 0)) (items n) = hasc it).
    { destruct (hasc it) eqn:Hc.
      - apply existsb_exists. exists it. split; [rewrite EI; apply in_or_app; right; left; auto|]. unfold noterm. rewrite T, Hc, LB, Nat.eqb_refl. reflexivity.
      - destruct (existsb _ (items n)) eqn:X; auto. exfalso. apply existsb_exists in X as (x & Hx & X). apply andb_prop in X as [X1 X2]. apply andb_prop in X1 as [X0 X1].
        apply Nat.eqb_eq in X2. rewrite (alook_unique n q it x W AL Hx X0 X2) in X1. congruence. }
    rewrite EH. rewrite <- LB. destruct (hasc it) eqn:Hc; cbn [negb].
    + rewrite (d_childID fp c ld h _ _ n R WD A it B EI T Hc). cbn [bind].
      destruct (at_child l P n Q A it B E EI Hc) as (P' & Q' & E' & N' & _). rewrite <- N'.
      assert (II : In it (items n)) by (rewrite EI; apply in_or_app; right; left; auto).
      pose proof (child_pd n it II) as PD. replace (tn_d n + 1) with (tn_pd (mkchild it)) by lia.
      specialize (IH (S l) P' (mkchild it) Q' E' ltac:(lia) ltac:(lia)).
      destruct (ld_get_loop fp todo ld q (nid (S l) P') (tn_pd (mkchild it))) as [[v|id d]| |]; try contradiction.
      * intros f Hf. destruct f as [|f]; [pose proof (w_pd n W); lia|]. rewrite AG by auto. apply IH. pose proof (w_pd n W). lia.
      * destruct IH as (P2 & n2 & Q2 & X1 & X2 & X3 & X4 & X5). exists P2, n2, Q2. repeat split; auto.
        intros f Hf. destruct f as [|f]; [pose proof (w_pd n W); lia|]. rewrite AG by auto. apply X5. pose proof (w_pd n W). lia.
    + rewrite (d_suffixPos_leaf fp c ld h _ _ n R WD A it B EI T Hc). cbn [bind].
      pose proof (leaves_split (concat (firstn l NSS) ++ P) (Q ++ concat (firstn (h - S l) (skipn (S l) NSS))) n A it B EI Hc) as LS.
      rewrite (check_value_spec fp c CO _ _ _ _ it q (tn_d n + 1) (ldr_suf _ _ _ _ _ R) (ldr_val _ _ _ _ _ R) LD LS). cbn [bind].
      intros f Hf. destruct f as [|f]; [lia|]. now apply AG.
Qed.

Lemma sparse_loop fuel : forall l P n Q, at_node l P n Q -> h <= l -> length q <= fuel + tn_pd n ->
  ls_get_loop fp fuel ls q (nid l P) (length (flat_map items (concat (firstn (l - h) (skipn h NSS)) ++ P))) (tn_pd n) = Ok (aget fp c (S fuel) 0 n q) /\
  forall f, length q < f + tn_pd n -> 0 < f -> aget fp c f 0 n q = aget fp c (S fuel) 0 n q.
Proof.
  induction fuel as [|fuel IH]; intros l P n Q E HL HF; pose proof (at_wf _ _ _ _ E) as W;
    destruct (at_sparse NSS h l P n Q E HL) as [AS AF];
    pose proof sr_ls as R; pose proof wf_sparse as WD; pose proof lo_sparse as LD; rewrite AS in R, WD, LD;
    set (S1 := concat (firstn (l - h) (skipn h NSS)) ++ P) in *;
    (assert (TW : 2 <= length (items n) \/ S1 = []) by
      (destruct (at_items_two l P n Q E) as [T|[T1 T2]]; [now left|right; unfold S1; subst l P; reflexivity])).
  - assert (length q <= tn_pd n) by lia. cbn [ls_get_loop aget]. destruct (Nat.leb_spec (length q) (tn_pd n)); [|lia].
    split; [apply (s_end fp c CO _ _ _ _ _ _ n q R WD _ LD)|]. intros f Hf Hp0. destruct f as [|f]; [lia|]. cbn [aget].
    destruct (Nat.leb_spec (length q) (tn_pd n)); [reflexivity|lia].
  - cbn [ls_get_loop]. 
    assert (AG : forall f, aget fp c (S f) 0 n q = if Nat.leb (length q) (tn_pd n) then aend_sparse fp c n q (tn_pd n) else
             if is_prefixb (nprefix n) (skipn (tn_pd n) q) then
               if Nat.leb (length q) (tn_d n) then aend_sparse fp c n q (tn_d n) else
               match alook n q with
        | None => None
        | Some it => if hasc it then aget fp c f 0 (mkchild it) q else leafres fp c it q (tn_d n + 1) end
             else None) by reflexivity.
    rewrite (AG (S fuel)). clear AG.
    assert (AG' : forall f, 0 < f -> exists f', f = S f') by (intros [|f'] ?; [lia|eauto]).
    destruct (Nat.leb_spec (length q) (tn_pd n)) as [Lp|Lp].
    { split; [apply (s_end fp c CO _ _ _ _ _ _ n q R WD _ LD)|]. intros f Hf H0. destruct (AG' f H0) as (f' & ->). cbn [aget].
      destruct (Nat.leb_spec (length q) (tn_pd n)); [reflexivity|lia]. }
    assert (NI : ls_prefixID ls (nid l P) = Ok (length S1)).
    { unfold ls_prefixID. rewrite (lsr_dn _ _ _ _ _ _ _ R). unfold SurfGet2.nid. rewrite AF. unfold sub_chk, S1. rewrite !app_length.
      match goal with |- (if Nat.leb ?a ?b then _ else _) = _ => destruct (Nat.leb_spec a b); [|lia] end. f_equal. lia. }
    rewrite NI. cbn [bind]. rewrite (s_checkPrefix fp c _ _ _ _ _ _ n q R) by lia. cbn [bind].
    destruct (is_prefixb (nprefix n) (skipn (tn_pd n) q)) eqn:PX.
    2:{ cbn [negb]. split; auto. intros f Hf H0. destruct (AG' f H0) as (f' & ->). cbn [aget]; rewrite ?PX. destruct (Nat.leb_spec (length q) (tn_pd n)); [lia|]. reflexivity. }
    cbn [negb]. rewrite prefix_depth by auto.
    destruct (Nat.leb_spec (length q) (tn_d n)) as [Le|Gt].
    { split; [apply (s_end fp c CO _ _ _ _ _ _ n q R WD _ LD)|]. intros f Hf H0. destruct (AG' f H0) as (f' & ->). cbn [aget]; rewrite ?PX.
      destruct (Nat.leb_spec (length q) (tn_pd n)); [lia|]. destruct (Nat.leb_spec (length q) (tn_d n)); [reflexivity|lia]. }
    assert (AG2 : forall f, aget fp c (S f) 0 n q = match alook n q with
        | None => None
        | Some it => if hasc it then aget fp c f 0 (mkchild it) q else leafres fp c it q (tn_d n + 1) end).
    { intros f. cbn [aget]; rewrite ?PX. destruct (Nat.leb_spec (length q) (tn_pd n)); [lia|]. destruct (Nat.leb_spec (length q) (tn_d n)); [lia|reflexivity]. }
    rewrite (idx_in q (tn_d n) 0 Gt). cbn [bind]. rewrite (s_nodeSize fp c _ _ _ _ _ _ n R WD TW). cbn [bind].
    destruct (alook n q) as [it|] eqn:AL.
    2:{ destruct (s_search_no fp c _ _ _ _ _ _ n R WD (nth (tn_d n) q 0)) as (p & ->).
        - intros x Hx NT LB. assert (alook n q <> None); [|congruence]. unfold alook. intros X. pose proof (find_none _ _ X x Hx) as Y. cbn beta in Y. rewrite NT, LB, Nat.eqb_refl in Y. discriminate.
        - cbn [bind negb]. split; auto. intros f Hf H0. destruct (AG' f H0) as (f' & ->). now apply AG2. }
    destruct (alook_split n q it AL) as (A & B & EI & T & LB). rewrite <- LB.
    rewrite (s_search fp c _ _ _ _ _ _ n R WD A it B EI) by (unfold noterm; rewrite T; reflexivity). cbn [bind negb].
    rewrite (s_hasc fp c _ _ _ _ _ _ n R A it B EI). cbn [bind].
    destruct (hasc it) eqn:Hc; cbn [negb].
    + rewrite (s_childID fp c _ _ _ _ _ _ n R A it B EI Hc). cbn [bind].
      destruct (at_child l P n Q A it B E EI Hc) as (P' & Q' & E' & N' & _).
      replace (concat (firstn h NSS) ++ S1) with (concat (firstn l NSS) ++ P) by (unfold S1; rewrite AF, app_assoc; reflexivity).
      rewrite <- N'.
      assert (II : In it (items n)) by (rewrite EI; apply in_or_app; right; left; auto).
      pose proof (child_pd n it II) as PD. replace (tn_d n + 1) with (tn_pd (mkchild it)) by lia.
      pose proof (w_pd n W) as WP.
      destruct (IH (S l) P' (mkchild it) Q' E' ltac:(lia) ltac:(lia)) as [IH1 IH2].
      destruct (at_sparse NSS h (S l) P' (mkchild it) Q' E' ltac:(lia)) as [AS' AF'].
      pose proof sr_ls as R'. pose proof wf_sparse as WD'. rewrite AS' in R', WD'.
      assert (FL : ls_firstLabelPos ls (nid (S l) P') = Ok (length (flat_map items (concat (firstn (S l - h) (skipn h NSS)) ++ P')))).
      { replace (nid (S l) P') with (length (concat (firstn h NSS)) + length (concat (firstn (S l - h) (skipn h NSS)) ++ P')).
        - apply (s_firstLabelPos fp c _ _ _ _ _ _ (mkchild it) R' WD').
        - unfold SurfGet2.nid. rewrite AF', !app_length. lia. }
      rewrite FL. cbn [bind]. rewrite IH1. split; auto.
      intros f Hf H0. destruct (AG' f H0) as (f' & ->). rewrite AG2. apply IH2; lia.
    + rewrite (s_suffixPos fp c _ _ _ _ _ _ n R A it B EI Hc). cbn [bind].
      pose proof (leaves_split S1 (Q ++ concat (skipn (S l) NSS)) n A it B EI Hc) as LS.
      rewrite (check_value_spec fp c CO _ _ _ _ it q (tn_d n + 1) (lsr_suf _ _ _ _ _ _ _ R) (lsr_val _ _ _ _ _ _ _ R) LD LS). split; auto.
      intros f Hf H0. destruct (AG' f H0) as (f' & ->). now apply AG2.
Qed.

Theorem surf_get_spec root : nth_error NSS 0 = Some [root] -> tn_pd root = 0 -> surf_get fp s q = Ok (aget fp c (S (length q)) h root q).
Proof.
  intros ER PR. assert (E : at_node 0 [] root []) by exact ER.
  pose proof (dense_loop h 0 [] root [] E eq_refl ltac:(lia)) as D.
  unfold surf_get, ld_get. rewrite (ldr_h _ _ _ _ _ sr_ld). change (nid 0 []) with 0 in D. rewrite PR in D.
  destruct (ld_get_loop fp h ld q 0 0) as [[v|id d]| |]; try contradiction; cbn [bind].
  - rewrite D; auto. lia.
  - destruct D as (P' & n' & Q' & E' & -> & -> & HD & HF). destruct (HF (S (length q)) ltac:(lia)) as (f' & F1 & F2). rewrite F2.
    unfold ls_get. 
    destruct (at_sparse NSS h h P' n' Q' E' ltac:(lia)) as [AS' AF'].
    pose proof sr_ls as R'. pose proof wf_sparse as WD'. rewrite AS' in R', WD'.
    assert (FL : ls_firstLabelPos ls (nid h P') = Ok (length (flat_map items (concat (firstn (h - h) (skipn h NSS)) ++ P')))).
    { replace (nid h P') with (length (concat (firstn h NSS)) + length (concat (firstn (h - h) (skipn h NSS)) ++ P')).
      - apply (s_firstLabelPos fp c _ _ _ _ _ _ n' R' WD').
      - unfold SurfGet2.nid. rewrite Nat.sub_diag. reflexivity. }
    rewrite FL. cbn [bind]. destruct (sparse_loop (length q) h P' n' Q' E' ltac:(lia) ltac:(lia)) as [S1 S2].
    rewrite S1. f_equal. destruct f' as [|f']; [lia|]. symmetry. apply S2; lia.
Qed.
End Key.
End Walk.
