(** * ArtConcStep2: a goroutine's own steps keep its invariant. *)
From Coq Require Import Permutation.
From Verif Require Import Base BitsModel BitsFacts VecModel VecProofs VecProofs2 ArtNode
  ArtNodeProofs ArtNodeProofs2 ArtNodeProofs3 ArtModel ArtSpec ArtTree ArtTree2 ArtRep ArtRep2
  ArtTree3 ArtSeq ArtMono ArtSeq2 ArtSeq3 ArtConc ArtConcHeap ArtConcInv ArtConcStep.
Ltac Zify.zify_post_hook ::= Z.div_mod_to_equations.

Definition ret_ok (S : seen) (p p' : pc) : Prop := forall o x, p' = PRet o x ->
  (committed p /\ x = None) \/
  match o with OGet _ => S x | ODelete _ => x = None /\ S None | OPut _ _ => False end.

Definition good (S : seen) (p : pc) (m : mem) (r : nat) (A : aheap) (m' : mem) (p' : pc) : Prop :=
  exists r' A', out p m r A p' m' r' A' /\ crep m' r' A' /\ TI m' r' A' S p' /\ pc_op p' = pc_op p /\ ret_ok S p p'.

Lemma valid_byte o i b : valid_op o -> nth_error (op_key o) i = Some b -> b < 256.
Proof.
  intros V E. assert (B : bytes_ok (op_key o)).
  { destruct o; cbn in V |- *; [destruct V as ((B & _) & _)|destruct V as (B & _)|destruct V as (B & _)]; exact B. }
  unfold bytes_ok in B. rewrite Forall_forall in B. apply B. eapply nth_error_In; eauto.
Qed.

Section Own.
Context (m : mem) (r : nat) (A : aheap) (K : crep m r A) (L : LI m A) (S : seen).
Let I : AInv r A := k_inv m r A K.

Lemma pure_ok p p' : cmt p p' -> held p' = held p -> doomed p' = doomed p -> TI m r A S p' -> pc_op p' = pc_op p -> ret_ok S p p' ->
  good S p m r A m p'.
Proof. intros CM HH HD TT HO HR. exists r, A. split; [now apply out_pure|]. split; [exact K|]. auto. Qed.

Lemma start_ok p o : ~ committed p -> held p = [] -> doomed p = [] -> pc_op p = Some o -> valid_op o -> good S p m r A m (PStart o).
Proof. intros NC HH HD HO HV. apply pure_ok; auto; [split; [contradiction|intros []]|]. intros o' x X; discriminate X. Qed.
Lemma crash_ok p o : ~ committed p -> held p = [] -> doomed p = [] -> pc_op p = Some o -> isput o = true -> good S p m r A m (PCrash o).
Proof. intros NC HH HD HO HV. apply pure_ok; auto; [split; [contradiction|intros []]|]. intros o' x X; discriminate X. Qed.

Lemma root_live : exists a c, A r = Some a /\ cell_at m r = Some c /\ r <> 0.
Proof.
  destruct (ai_root r A I) as (a & Ha & _). destruct (k_node _ _ _ K _ _ Ha) as (c & Hc & _). exists a, c. split; auto. split; auto.
  eapply k_live0; eauto.
Qed.

Lemma zero_past w c : cell_at m 0 = Some c -> c_ver c = w -> locked w = false -> Past m 0 w.
Proof.
  intros Hc <- HL. split; [|exists c; split; auto; lia]. apply unlocked_live; auto.
  - now apply (li_mod _ _ L 0).
  - pose proof (li_zero _ _ L _ Hc) as Z. pose proof (mod4_bits (c_ver c)) as E. rewrite HL in E.
    destruct (obsolete (c_ver c)); auto. cbn in E. lia.
Qed.

Lemma FI_root o w : valid_op o -> Past m 0 w -> forall r0, r0 <> 0 -> has m r0 -> RootC r A r0 -> FI m r A S o (mkF 0 0 w LRoot r0).
Proof.
  intros V P r0 N H RC. constructor; cbn [f_cur f_par f_pv f_loc f_depth]; auto.
  - lia.
  - split; auto. intros c Hc Vc X. cbn in X. congruence.
Qed.

Section Frame.
Context (o : op) (f : frame) (F : FI m r A S o f).
Context (SC : forall x, val A (op_key o) x -> S x).

Lemma cur_cell : exists c, cell_at m (f_cur f) = Some c.
Proof. exact (fi_has _ _ _ _ _ _ F). Qed.
Lemma par_cell : exists c, cell_at m (f_par f) = Some c.
Proof. exact (At_has _ _ _ _ _ (fi_link _ _ _ _ _ _ F)). Qed.
Lemma par_gone : forall c, cell_at m (f_par f) = Some c -> c_ver c <> f_pv f -> Gone m (f_par f) (f_pv f).
Proof.
  intros c Hc V. destruct (fi_link _ _ _ _ _ _ F) as ((_ & c' & Hc' & LL) & _). assert (c' = c) by congruence. subst. exists c. split; auto. lia.
Qed.

Lemma root_now a : A (f_cur f) = Some a -> root_fact r f.
Proof.
  intros Ha. destruct (Nat.eq_dec (f_par f) 0) as [E|E].
  - left. destruct (fi_root _ _ _ _ _ _ F E) as (X & _ & RC). split; auto. split; auto. apply RC. congruence.
  - right. split; auto. exact (fi_inner _ _ _ _ _ _ F E).
Qed.

Lemma base_now a c nd : A (f_cur f) = Some a -> cell_at m (f_par f) = Some c -> c_ver c = f_pv f -> f_base o S f nd (A (f_cur f)).
Proof.
  intros Ha Hc V. exists a. split; auto. destruct (Nat.eq_dec (f_par f) 0) as [E|E].
  - destruct (fi_root _ _ _ _ _ _ F E) as (_ & -> & RC). assert (f_cur f = r) by (apply RC; congruence). rewrite H in Ha.
    destruct (ai_root r A I) as (ar & Hr & E1 & E2). assert (ar = a) by congruence. subst ar. rewrite E1, E2. split; auto. left. now exists (op_key o).
  - destruct (proj2 (fi_link _ _ _ _ _ _ F) c Hc V E) as (ap & b & s & q & Hap & Hb & _ & _ & -> & Eb & KP).
    destruct (ai_node r A I _ _ _ _ Hap Hb) as (a' & Ha' & P & LL). assert (a' = a) by congruence. subst a'.
    split; [lia|]. apply is_prefix_firstn in P. rewrite app_length in P. cbn [length] in P. replace (Datatypes.S (length (aW ap))) with (length (aW ap) + 1) by lia. rewrite P.
    destruct KP as [KP|KP]; [left; apply is_prefix_snoc; auto|right; auto].
Qed.

Lemma lock_base v c : cell_at m (f_cur f) = Some c -> c_ver c = v -> unl v -> isput o = true -> J m A o f v (f_base o S f).
Proof.
  intros Hc V U P. split; [split; auto; exists c; split; auto; lia|]. destruct par_cell as (cp & Hcp).
  destruct (N.eq_dec (c_ver cp) (f_pv f)) as [E|E].
  - right. intros c' Hc' _. assert (HA : A (f_cur f) <> None). { eapply (li_live _ _ L); eauto; [exact (fi_cur _ _ _ _ _ _ F)|congruence]. }
    destruct (A (f_cur f)) as [a|] eqn:Ha; [|contradiction]. rewrite <- Ha. eapply base_now; eauto.
  - left. split; auto. eapply par_gone; eauto.
Qed.

Lemma none_of W : is_prefix W (op_key o) \/ isput o = false /\ S None -> (is_prefix W (op_key o) -> absent A (op_key o)) -> S None.
Proof. intros [X|(_ & X)] H; auto. apply SC. cbn. auto. Qed.

(** What a lookup finds at a node on the path. *)
Lemma look n a : A n = Some a -> kp o S (aW a) -> isput o = false ->
  anext A (op_key o) n = None -> S (alookup a (op_key o)) \/ S None.
Proof. intros Ha [KP|(_ & KP)] _ HN; auto. left. apply SC. eapply (val_at r A I); eauto. Qed.

Lemma anext_none n a b : A n = Some a -> nth_error (op_key o) (length (aW a)) = Some b ->
  (forall y, aCh a b <> Some (AN y)) -> anext A (op_key o) n = None.
Proof. intros Ha Eb HB. unfold anext. rewrite Ha, Eb. destruct (aCh a b) as [[]|]; auto. exfalso. eapply HB; eauto. Qed.
Lemma anext_end n a : A n = Some a -> length (op_key o) <= length (aW a) -> anext A (op_key o) n = None.
Proof. intros Ha LE. unfold anext. rewrite Ha. now rewrite (proj2 (nth_error_None _ _) LE). Qed.

Lemma lookup_val a k : length k = length (aW a) -> alookup a k = if beqb (aW a) k then aLeaf a else None.
Proof. intros E. unfold alookup. now rewrite (proj2 (nth_error_None k (length (aW a)))) by lia. Qed.

Lemma child_frame v d slot q b y a c : cell_at m (f_cur f) = Some c -> c_ver c = v -> unl v ->
  A (f_cur f) = Some a -> length (aW a) = d -> kp o S (aW a) -> nth_error (op_key o) d = Some b ->
  aCh a b = Some (AN y) -> slot_of (c_node c) b slot q ->
  FI m r A S o (mkF (d + 1) (f_cur f) v (LSlot (f_cur f) slot) y).
Proof.
  intros Hc V U Ha Ld KP Eb Hb SL.
  destruct (ai_node r A I _ _ _ _ Ha Hb) as (ay & Hay & P & LL). destruct (k_node _ _ _ K _ _ Hay) as (cy & Hcy & _).
  pose proof (fi_cur _ _ _ _ _ _ F) as N0.
  constructor; cbn [f_cur f_par f_pv f_loc f_depth].
  - exact (fi_valid _ _ _ _ _ _ F).
  - eapply k_live0; eauto.
  - now exists cy.
  - assert (d < length (op_key o)) by (apply nth_error_Some; congruence). lia.
  - intros X. congruence.
  - intros _ X. subst y. exact (root_no_parent r A I _ _ _ Ha Hb).
  - split; [split; auto; exists c; split; auto; lia|]. intros c' Hc' _ _. cbn [f_cur f_par f_pv f_loc f_depth].
    assert (c' = c) by congruence. subst c'. exists a, b, slot, q. subst d. repeat split; auto. lia.
Qed.
End Frame.

Lemma env_lock H n c : cell_at m n = Some c -> ~ In n H -> unl (c_ver c) -> env H m r A (set_ver m n (c_ver c + 2)) r A.
Proof.
  intros Hc HN U. constructor; auto; [|congruence]. intros x cx Hx. rewrite (cell_set_ver m n c) by auto. destruct (Nat.eqb_spec n x) as [<-|N].
  - assert (cx = c) by congruence. subst cx. eexists. split; [reflexivity|]. cbn [c_ver]. split; [lia|]. split; [lia|]. intros; contradiction.
  - exists cx. split; auto. split; [lia|]. auto.
Qed.

Lemma lock_ok p p' n c : cmt p p' -> cell_at m n = Some c -> unl (c_ver c) -> Permutation (held p') (n :: held p) -> doomed p = [] -> doomed p' = [] ->
  TI (set_ver m n (c_ver c + 2)) r A S p' -> pc_op p' = pc_op p -> (forall o x, p' <> PRet o x) ->
  good S p m r A (set_ver m n (c_ver c + 2)) p'.
Proof.
  intros. exists r, A. split; [eapply out_lock; eauto|]. split; [eapply crep_set_ver; eauto|]. split; auto. split; auto.
  intros o x X. exfalso. eapply H7; eauto.
Qed.

Lemma Own_lock n v (P : fact) c : At m A n v P -> cell_at m n = Some c -> c_ver c = v -> Own (set_ver m n (c_ver c + 2)) A n v P.
Proof.
  intros ((U & _) & Q) Hc V. split; auto. eexists. rewrite (cell_set_ver m n c) by auto. rewrite Nat.eqb_refl. split; [reflexivity|].
  cbn [c_ver c_node]. split; [congruence|]. auto.
Qed.
Lemma Own_ne n v P x c : Own m A n v P -> cell_at m x = Some c -> unl (c_ver c) -> x <> n.
Proof. intros (U & c' & Hc' & V & _) Hc U2 ->. assert (c' = c) by congruence. subst. unfold unl in *. lia. Qed.

Definition stepok (p : pc) : Prop := forall first nd m' p', reads_ok m p nd -> tstep first nd m p = SGo m' p' ->
  good S p m r A m' p'.

Ltac noret := intros ? ? X0; discriminate X0.
Ltac cm := split; cbn [committed];
  [first [solve [intros []]|discriminate|solve [auto]]|
   first [discriminate|solve [right; eexists _, _; reflexivity]|solve [intros []]|solve [auto]]].
Ltac pure := apply pure_ok; [cm|reflexivity|reflexivity| |reflexivity|try noret].

Lemma s_PStart o : valid_op o -> stepok (PStart o).
Proof.
  intros VO first nd m' p' _. cbn [tstep]. destruct first.
  - rewrite (k_root _ _ _ K). intros H. apply go_inv in H as (-> & ->). pure. cbn.
    destruct root_live as (a & c & Ha & Hc & N). split; auto. split; auto. split; [now exists c|]. intros _. reflexivity.
  - destruct (k_dummy _ _ _ K) as (c & Hc). rewrite (get_ver_ok _ _ _ Hc). cbn [lift]. destruct (locked (c_ver c)) eqn:E; [discriminate|].
    intros H. apply go_inv in H as (-> & ->). pure. cbn. split; auto. eapply zero_past; eauto.
Qed.

Lemma s_PRoot o r0 : TI m r A S (PRoot o r0) -> stepok (PRoot o r0).
Proof.
  intros (VO & N & HS & RC) first nd m' p' _. cbn [tstep].
  destruct (k_dummy _ _ _ K) as (c & Hc). rewrite (get_ver_ok _ _ _ Hc). cbn [lift]. destruct (locked (c_ver c)) eqn:E; [discriminate|].
  intros H. apply go_inv in H as (-> & ->). pure. apply FI_root; auto. eapply zero_past; eauto.
Qed.

Lemma s_PDum o w : TI m r A S (PDum o w) -> stepok (PDum o w).
Proof.
  intros (VO & P) first nd m' p' _. cbn [tstep]. rewrite (k_root _ _ _ K). intros H. apply go_inv in H as (-> & ->). pure.
  destruct root_live as (a & c & Ha & Hc & N). apply FI_root; auto; [now exists c|]. intros _. reflexivity.
Qed.

Lemma s_PLock o f : TI m r A S (PLock o f) -> stepok (PLock o f).
Proof.
  intros F first nd m' p' _ H. cbn [tstep TI] in *. destruct (cur_cell o f F) as (c & Hc).
  pose proof (rlock_inv m o _ _ _ m' p' c Hc (li_mod _ _ L _ _ Hc) H) as X; clear H; destruct X as (-> & [(U & ->)| ->]).
  - assert (HA : A (f_cur f) <> None). { eapply (li_live _ _ L); eauto. exact (fi_cur _ _ _ _ _ _ F). }
    assert (AT : At m A (f_cur f) (c_ver c) f_live). { split; [split; auto; exists c; split; auto; lia|]. intros c' Hc' _. exact HA. }
    destruct o; pure; cbn [TI]; (split; [exact F|]).
    + split; auto. eapply lock_base; eauto.
    + split; auto.
    + split; auto.
  - apply start_ok; auto. exact (fi_valid _ _ _ _ _ _ F).
Qed.

Lemma s_PPar o f v : TI m r A S (PPar o f v) -> stepok (PPar o f v).
Proof.
  intros (F & NP & AT) first nd m' p' _ H. cbn [tstep] in *. destruct (par_cell o f F) as (cp & Hcp).
  pose proof (vcheck_inv m o _ _ _ _ m' p' cp Hcp H) as X; clear H; destruct X as (-> & [(V & ->)|(V & ->)]).
  - pure. cbn [TI]. split; auto. split; auto. split; [apply AT|]. right. intros c Hc Vc.
    pose proof (proj2 AT c Hc Vc) as HA. unfold f_live in HA. destruct (A (f_cur f)) as [a|] eqn:Ha; [|contradiction].
    rewrite <- Ha. eapply base_now; eauto.
  - apply start_ok; auto. exact (fi_valid _ _ _ _ _ _ F).
Qed.

Lemma s_PRead0 o f v : TI m r A S (PRead0 o f v) -> stepok (PRead0 o f v).
Proof.
  intros (F & NP & JJ) first nd m' p' RD H. cbn [tstep reads_ok reads] in *. apply go_inv in H as (-> & ->).
  unfold reads_ok in RD. cbn [reads] in RD. destruct (Nat.eqb_spec (n_plen nd) 0) as [E|E]; pure; cbn [TI]; split; auto; split; auto.
  split; [exact (fi_depth _ _ _ _ _ _ F)|].
  destruct (J_read _ _ _ _ _ _ _ JJ RD) as [(c & Hc & V & -> & (a & Ha & Hd & KP) & Q)|(Q & _)]; [|apply Q]. apply Q.
  pose proof (k_live_cell _ _ _ _ _ _ K Ha Hc) as R. rewrite (nr_plen _ _ _ R) in E. rewrite Ha. exists a. split; auto. split; [lia|].
  rewrite firstn_all2 in KP by lia. exact KP.
Qed.

Lemma s_PRead1 o f v : TI m r A S (PRead1 o f v) -> (forall x, val A (op_key o) x -> S x) -> stepok (PRead1 o f v).
Proof.
  intros (F & NP & JJ) SC first nd m' p' RD H. unfold reads_ok in RD. cbn [tstep reads] in *.
  destruct (rest_total nd (op_key o) (f_depth f)) as (d & ok & E & D). rewrite E in H. cbn [lift] in H. apply go_inv in H as (-> & ->).
  destruct (J_read _ _ _ _ _ _ _ JJ RD) as [(c & Hc & V & -> & (a & Ha & Hd & KP) & Q)|(Q & _)].
  - pose proof (k_live_cell _ _ _ _ _ _ K Ha Hc) as R. destruct (rest_spec _ _ _ _ _ _ _ R Hd E) as (R1 & R2).
    assert (AB : ~ is_prefix (aW a) (op_key o) -> S None).
    { intros N. destruct KP as [KP|(_ & KP)]; auto. apply SC. cbn. eapply (absent_path r A I); eauto. }
    destruct ok; pure; cbn [TI]; split; auto; split; auto.
    + split; auto. apply Q. rewrite Ha. exists a. split; auto. split; [symmetry; auto|].
      destruct (is_prefix_dec (aW a) (op_key o)) as [P|P]; [left|right]; auto.
    + apply Q. apply AB. auto.
  - destruct ok; pure; cbn [TI]; split; auto.
Qed.

Lemma s_PRead2 o f v d : TI m r A S (PRead2 o f v d) -> stepok (PRead2 o f v d).
Proof.
  intros (F & NP & D & JJ) first nd m' p' RD H. unfold reads_ok in RD. cbn [tstep reads] in *.
  destruct (Nat.eqb_spec d (length (op_key o))) as [E|E].
  - assert (EX : exists p2, SGo m' p' = go m p2 /\ TI m r A S p2 /\ held p2 = [] /\ doomed p2 = [] /\ pc_op p2 = Some o /\ ~ committed p2 /\ forall o' x, p2 <> PRet o' x).
    { destruct o as [k0 v0|k|k]; [discriminate| |].
      - eexists. split; [symmetry; exact H|]. split; [|split; [reflexivity|split; [reflexivity|split; [reflexivity|split; [intros []|discriminate]]]]]. cbn [TI]. split; auto. split; auto.
        destruct (J_read _ _ _ _ _ _ _ JJ RD) as [(c & Hc & V & -> & (a & Ha & Hd & KP) & Q)|(Q & _)]; [|apply Q]. apply Q.
        pose proof (k_live_cell _ _ _ _ _ _ K Ha Hc) as R. rewrite Ha. exists a. split; auto. split; auto. split; auto. left.
        split; [now exists k|]. split; auto. rewrite (nr_pleaf _ _ _ R). destruct (aLeaf a); reflexivity.
      - eexists. split; [symmetry; exact H|]. split; [|split; [reflexivity|split; [reflexivity|split; [reflexivity|split; [intros []|discriminate]]]]]. cbn [TI]. split; auto. split; auto. split; [now exists k|].
        destruct (J_read _ _ _ _ _ _ _ JJ RD) as [(c & Hc & V & -> & (a & Ha & Hd & KP) & Q)|(Q & _)]; [|apply Q]. apply Q.
        pose proof (k_live_cell _ _ _ _ _ _ K Ha Hc) as R. rewrite Ha. exists a. split; auto. split; [lia|]. split; auto. apply R. }
    destruct EX as (p2 & E2 & T & HH & HD & HO & NC & HR). symmetry in E2. apply go_inv in E2 as (-> & ->). apply pure_ok; auto; [split; [intros []|contradiction]|].
    intros o' x X. exfalso. eapply HR; eauto.
  - rewrite (proj2 (Nat.ltb_lt d (length (op_key o)))) in H by lia.
    destruct (nth_error (op_key o) d) as [b|] eqn:Eb; [|apply nth_error_None in Eb; lia].
    rewrite (idx_err _ _ _ Eb) in H. cbn [lift] in H. pose proof (valid_byte o d b (fi_valid _ _ _ _ _ _ F) Eb) as Hb.
    destruct (J_read _ _ _ _ _ _ _ JJ RD) as [(c & Hc & V & -> & (a & Ha & Hd & KP) & Q)|(Q & [Q2|(c & Hc & SH)])]; [|congruence|].
    + pose proof (k_live_cell _ _ _ _ _ _ K Ha Hc) as R. destruct (find_rep _ _ _ R b Hb) as (slot & pos & E3 & SL).
      rewrite E3 in H. cbn [lift] in H. apply go_inv in H as (-> & ->). pure. cbn [TI]. split; auto. split; auto.
      apply Q. rewrite Ha. exists a. split; auto. split; auto. split; auto. right. exists b. split; auto.
    + destruct (find_shape _ _ _ SH Hb) as (((nx & s) & q) & E3). rewrite E3 in H. cbn [lift] in H. apply go_inv in H as (-> & ->).
      pure. cbn [TI]. split; auto.
Qed.

Lemma s_PMiss o f v : TI m r A S (PMiss o f v) -> stepok (PMiss o f v).
Proof.
  intros (F & NP & JJ) first nd m' p' _ H. cbn [tstep] in *. destruct (cur_cell o f F) as (c & Hc).
  pose proof (vcheck_inv m o _ _ _ _ m' p' c Hc H) as X; clear H; destruct X as (-> & [(V & ->)|(V & ->)]).
  - pure; cbn [TI]; auto. intros o' x X. right.
    destruct (J_now _ _ _ _ _ _ _ JJ Hc V) as [(X1 & _)|X1]; [congruence|]. unfold f_none in X1. inversion X; subst.
    destruct o'; auto. discriminate.
  - apply start_ok; auto. exact (fi_valid _ _ _ _ _ _ F).
Qed.

Lemma beqb_false_ne (a b : bytes) : beqb a b = false -> a <> b.
Proof. apply beqb_neq. Qed.

Lemma s_PNext o f v d next slot pos : TI m r A S (PNext o f v d next slot pos) -> (forall x, val A (op_key o) x -> S x) ->
  stepok (PNext o f v d next slot pos).
Proof.
  intros (F & D & JJ) SC first nd m' p' _ H. cbn [tstep] in H. destruct (cur_cell o f F) as (c & Hc).
  rewrite (get_ver_ok _ _ _ Hc) in H. cbn [lift] in H. destruct (N.eqb_spec v (c_ver c)) as [V|V]; cbn [negb] in H;
    [|apply go_inv in H as (-> & ->); apply start_ok; auto; exact (fi_valid _ _ _ _ _ _ F)].
  symmetry in V. pose proof (proj1 (proj1 JJ)) as U.
  destruct (isput o) eqn:EP.
  - (* Put *) destruct o as [key value|k|k]; try discriminate. set (o := OPut key value) in *.
    destruct next as [np|]; apply go_inv in H as (-> & ->); pure; cbn [TI]; (split; [exact F|]); (split; [reflexivity|]); [split|]; [eapply J_mk; [exact JJ|]| |eapply J_mk; [exact JJ|]].
    + intros c' _ _ (a & Ha & Hd & [KP|(X1 & _)] & [((k & X2) & _)|(b & Eb & EN & SL)]); try discriminate.
      destruct (aCh a b) as [q|] eqn:Eq; [|discriminate]. inversion EN. exists a, b, q, pos. repeat split; auto. apply SL. discriminate.
    + destruct (J_now _ _ _ _ _ _ _ JJ Hc V) as [(X1 & X2)|(a & Ha & Hd & KP & NX)]; [left; exact X2|right]. intros y ->.
      destruct NX as [((k & X1) & _)|(b & Eb & EN & _)]; [discriminate|]. destruct (aCh a b) as [[k w|y']|] eqn:Eq; try discriminate.
      inversion EN; subst y'. destruct (ai_node r A I _ _ _ _ Ha Eq) as (ay & Hay & P & LL). destruct (k_node _ _ _ K _ _ Hay) as (cy & Hcy & _).
      split; [apply nth_error_Some; congruence|]. split; [eapply k_live0; eauto|]. split; [now exists cy|].
      intros ->. exact (root_no_parent r A I _ _ _ Ha Eq).
    + intros c' _ _ (a & Ha & Hd & [KP|(X1 & _)] & [((k & X2) & _)|(b & Eb & EN & SL)]); try discriminate.
      exists a, b. repeat split; auto. destruct (aCh a b); [discriminate|reflexivity].
  - destruct (J_now _ _ _ _ _ _ _ JJ Hc V) as [(X1 & _)|(a & Ha & Hd & KP & NX)]; [congruence|].
    pose proof (k_live_cell _ _ _ _ _ _ K Ha Hc) as R.
    assert (LF : forall l, next = Some (PLeaf l) -> exists k w, l = newLeaf k w /\ holds a k w /\ (k <> op_key o -> S None) /\
       ((exists k, o = OGet k) \/ exists b, nth_error (op_key o) d = Some b /\ aCh a b = Some (AL k w) /\ slot_of (c_node c) b slot pos)).
    { intros l ->. destruct NX as [(GO & E & EN)|(b & Eb & EN & SL)].
      - destruct (aLeaf a) as [w|] eqn:EL; [|discriminate]. inversion EN. exists (aW a), w. split; auto.
        split; [left; auto|]. split; [|left; auto]. intros NE. destruct KP as [KP|(_ & KP)]; auto. exfalso. apply NE.
        apply is_prefix_eq_len; auto. lia.
      - destruct (aCh a b) as [[k w|y]|] eqn:Eq; try discriminate. inversion EN. exists k, w. split; auto. split; [right; now exists b|].
        split; [|right; exists b; split; auto; split; auto; apply SL; discriminate].
        intros NE. destruct KP as [KP|(_ & KP)]; auto. apply SC. subst d.
        replace None with (alookup a (op_key o)); [apply (val_at r A I (f_cur f) a); auto; eapply anext_none; eauto; congruence|].
        unfold alookup. rewrite Eb, Eq. replace (beqb k (op_key o)) with false; auto. symmetry. now apply beqb_neq. }
    assert (LN : next = None -> S None).
    { intros ->. destruct KP as [KP|(_ & KP)]; auto. apply SC. subst d. destruct NX as [(GO & E & EN)|(b & Eb & EN & SL)].
      - replace None with (alookup a (op_key o)); [apply (val_at r A I (f_cur f) a); auto; eapply anext_end; eauto; lia|].
        rewrite lookup_val by auto. destruct (aLeaf a); [discriminate|]. now destruct (beqb _ _).
      - destruct (aCh a b) eqn:Eq; [discriminate|].
        replace None with (alookup a (op_key o)); [apply (val_at r A I (f_cur f) a); auto; eapply anext_none; eauto; congruence|].
        unfold alookup. now rewrite Eb, Eq. }
    destruct next as [[y|l]|].
    + assert (FN : FI m r A S o (mkF (d + 1) (f_cur f) v (LSlot (f_cur f) slot) y)).
      { destruct NX as [(_ & _ & EN)|(b & Eb & EN & SL)]; [destruct (aLeaf a); discriminate|].
        destruct (aCh a b) as [[k w|y']|] eqn:Eq; try discriminate. inversion EN; subst y'.
        eapply child_frame; eauto. apply SL. discriminate. }
      destruct o as [k0 v0|key|key]; [discriminate| |]; apply go_inv in H as (-> & ->); pure; exact FN.
    + destruct (LF l eq_refl) as (k & w & -> & HO & NE & GD). destruct (nr_keys _ _ _ R _ _ HO) as (F1 & F2 & _).
      destruct o as [k0 v0|key|key]; [discriminate| |]; cbn [op_key] in *.
      * rewrite leaf_match_newLeaf in H by auto. cbn [lift] in H. destruct (beqb k key) eqn:EB.
        -- rewrite leaf_value_newLeaf in H by auto. cbn [lift] in H. apply go_inv in H as (-> & ->). pure; cbn [TI]; auto.
           intros o' x X. inversion X; subst. right. apply SC. cbn. apply beqb_eq in EB. subst k. now exists (f_cur f), a.
        -- apply go_inv in H as (-> & ->). pure; cbn [TI]; auto. intros o' x X. inversion X; subst. right. apply NE. now apply beqb_neq.
      * rewrite leaf_match_newLeaf in H by auto. cbn [lift] in H. apply go_inv in H as (-> & ->). destruct GD as [(k' & X)|(b & Eb & Eq & SL)]; [discriminate|].
        destruct (beqb k key) eqn:EB.
        -- pure. cbn [TI]. split; auto. split; auto. split; [now exists key|]. apply beqb_eq in EB. subst k. eapply J_mk; [exact JJ|].
           intros c' Hc' _ _. assert (c' = c) by congruence. subst c'. rewrite Ha. exists a, b, w, slot. auto.
        -- pure. cbn [TI]. split; auto. split; auto. apply NE. now apply beqb_neq.
    + destruct o as [k0 v0|key|key]; [discriminate| |]; apply go_inv in H as (-> & ->); (pure; cbn [TI]; auto); intros o' x X; inversion X; subst; right; auto.
Qed.

(** *** insert *)
Lemma s_IMis o f v : TI m r A S (IMis o f v) -> stepok (IMis o f v).
Proof.
  intros (F & NP & JJ) first nd m' p' RD H. unfold reads_ok in RD. cbn [tstep reads] in *. apply go_inv in H as (-> & ->).
  unfold maxPrefixLen. destruct (Nat.leb_spec (n_plen nd) 8) as [E|E]; pure; cbn [TI]; split; auto; split; auto; [|split; auto];
  (destruct (J_read _ _ _ _ _ _ _ JJ RD) as [(c & Hc & V & -> & B & Q)|(Q & _)]; [|apply Q]); apply Q; (split; [exact B|]);
  intros a Ha; pose proof (k_live_cell _ _ _ _ _ _ K Ha Hc) as R; rewrite (nr_plen _ _ _ R) in E; auto.
Qed.

Lemma kp_put o W : isput o = true -> kp o S W -> is_prefix W (op_key o).
Proof. intros E [X|(X & _)]; auto. congruence. Qed.

Lemma s_IMis1 o f v : TI m r A S (IMis1 o f v) -> stepok (IMis1 o f v).
Proof.
  intros (F & NP & JJ) first nd m' p' RD H. unfold reads_ok in RD. cbn [tstep reads] in *.
  apply lift_inv in H as [(p & E & H)|(_ & -> & ->)]; [|apply crash_ok; auto]. apply go_inv in H as (-> & ->). pure. cbn [TI]. split; auto. split; auto.
  destruct (J_read _ _ _ _ _ _ _ JJ RD) as [(c & Hc & V & -> & ((a & Ha & Hd & KP) & P8) & Q)|(Q & _)]; [|apply Q]. apply Q.
  pose proof (k_live_cell _ _ _ _ _ _ K Ha Hc) as R. specialize (P8 a Ha).
  destruct (mismatch_short _ _ a (op_key o) (f_depth f) R ltac:(lia) (kp_put _ _ NP KP) P8) as (p2 & E2 & Q1 & Q2 & Q3).
  rewrite E in E2. apply Ok_inj in E2. subst p2. rewrite Ha. exists a. repeat split; auto. intros; lia.
Qed.

Lemma s_FChk o f v got : TI m r A S (FChk o f v got) -> stepok (FChk o f v got).
Proof.
  intros (F & NP & JJ & G) first nd m' p' RD H. cbn [tstep reads] in *. destruct (cur_cell o f F) as (c & Hc).
  pose proof (vcheck_inv m o _ _ _ _ m' p' c Hc H) as X; clear H; destruct X as (-> & [(V & ->)|(V & ->)]).
  - pure. cbn [TI]. auto.
  - apply start_ok; auto. exact (fi_valid _ _ _ _ _ _ F).
Qed.

Lemma s_FPar o f v got : TI m r A S (FPar o f v got) -> stepok (FPar o f v got).
Proof.
  intros (F & NP & JJ & G) first nd m' p' RD H. cbn [tstep reads] in *. destruct (par_cell o f F) as (c & Hc).
  pose proof (vcheck_inv m o _ _ _ _ m' p' c Hc H) as X; clear H; destruct X as (-> & [(V & ->)|(V & ->)]).
  - destruct got as [fk|]; pure; cbn [TI]; auto. split; auto. split; auto. split; auto.
    pose proof (J_At _ _ _ _ _ _ JJ (no_gone _ _ _ _ Hc V)) as AT. split.
    + eapply At_imp; [|exact AT]. intros nd' oa ((a & Ha & Hd & _) & P8). exists a. split; auto. intros E. rewrite E in Hd. specialize (P8 a Ha). cbn in Hd. lia.
    + exists (match A (f_cur f) with Some a => aW a | None => [] end). split; intros a Ha; rewrite Ha; [reflexivity|apply is_prefix_refl].
  - apply start_ok; auto. exact (fi_valid _ _ _ _ _ _ F).
Qed.

Lemma s_FRd o f v x vx : TI m r A S (FRd o f v x vx) -> stepok (FRd o f v x vx).
Proof.
  intros (F & NP & JJ & AT & CH) first nd m' p' RD H. unfold reads_ok in RD. cbn [tstep reads] in *.
  destruct (n_pleaf nd) as [l|] eqn:EL.
  - apply go_inv in H as (-> & ->). pure. cbn [TI]. split; auto. split; auto. split; auto. split; auto.
    destruct (At_read _ _ _ _ _ _ AT RD) as [(c & Hc & V & -> & (a & Ha & N) & Q)|Q]; [|apply Q]. apply Q.
    pose proof (k_live_cell _ _ _ _ _ _ K Ha Hc) as R. rewrite (nr_pleaf _ _ _ R) in EL. destruct (aLeaf a) as [w|] eqn:EA; [|discriminate].
    inversion EL. rewrite Ha. exists a, (aW a), w. split; auto. split; auto. left. auto.
  - apply lift_inv in H as [(next & E & H)|(_ & -> & ->)]; [|apply crash_ok; auto]. apply go_inv in H as (-> & ->). pure. cbn [TI].
    split; auto. split; auto. split; auto. split; auto.
    destruct (At_read _ _ _ _ _ _ AT RD) as [(c & Hc & V & -> & (a & Ha & N) & Q)|Q]; [|apply Q]. apply Q.
    pose proof (k_live_cell _ _ _ _ _ _ K Ha Hc) as R. rewrite Ha. exists a. split; auto. intros q ->.
    assert (ER : Nat.eqb x r = false).
    { apply Nat.eqb_neq. intros ->. destruct (ai_root r A I) as (ar & Hr & E1 & _). congruence. }
    pose proof (nr_occ _ _ _ R ER) as OC. rewrite (nr_pleaf _ _ _ R) in EL. destruct (aLeaf a) as [w|] eqn:EA; [discriminate|]. cbn [nleaf] in OC.
    destruct (firstChild_spec (c_node c) (nr_layout _ _ _ R)) as (b & p & E2 & E3); [lia|]. rewrite E in E2. apply Ok_inj in E2. inversion E2; subst p.
    rewrite (nr_V _ _ _ R) in E3. destruct (aCh a b) as [p|] eqn:Eb; [|discriminate]. inversion E3. exists b, p. auto.
Qed.

Lemma s_FVal o f v x vx next : TI m r A S (FVal o f v x vx next) -> stepok (FVal o f v x vx next).
Proof.
  intros (F & NP & JJ & AT & CH) first nd m' p' RD H. cbn [tstep reads] in *. destruct (At_has _ _ _ _ _ AT) as (c & Hc).
  rewrite (get_ver_ok _ _ _ Hc) in H. cbn [lift] in H. destruct (N.eqb_spec vx (c_ver c)) as [V|V]; cbn [negb] in H;
    [|apply go_inv in H as (-> & ->); pure; cbn [TI]; auto].
  destruct next as [[y|l]|]; [| |change (go m (PCrash o) = SGo m' p') in H; apply go_inv in H as (-> & ->); apply crash_ok; auto].
  - apply go_inv in H as (-> & ->). pure. cbn [TI]. split; auto. split; auto. split; auto.
    destruct (proj2 AT c Hc (eq_sym V)) as (a & Ha & Q). destruct (Q _ eq_refl) as (b & p & Eb & Ep). destruct p as [k w|y']; [discriminate|].
    inversion Ep; subst y'. destruct (ai_node r A I _ _ _ _ Ha Eb) as (ay & Hay & P & LL). destruct (k_node _ _ _ K _ _ Hay) as (cy & Hcy & _).
    split; [eapply k_live0; eauto|]. split; [now exists cy|]. split.
    + destruct CH as (W & W1 & W2). exists W. split; auto. intros ay' Hay'. assert (ay' = ay) by congruence. subst ay'.
      eapply is_prefix_trans; [apply (W2 a Ha)|]. eapply is_prefix_trans; [apply is_prefix_app_l|]. exact P.
    + destruct P as (t & P). exists (hd 0 (aW ay)), []. intros ay' Hay'. assert (ay' = ay) by congruence. subst ay'. rewrite P.
      destruct (aW a) as [|h W]; cbn; [now exists t|]. exists ((W ++ [b]) ++ t). reflexivity.
  - apply go_inv in H as (-> & ->). pure. cbn [TI]. split; auto. split; auto. split; auto. split; auto.
    eapply At_mk; [exact AT|]. intros c' _ _ (a & Ha & Q). destruct (Q _ eq_refl) as (b & p & Eb & Ep). destruct p as [k w|y']; [|discriminate].
    inversion Ep. rewrite Ha. exists a, k, w. split; auto. split; auto. right. now exists b.
Qed.

Lemma s_FLeaf o f v x vx l : TI m r A S (FLeaf o f v x vx l) -> stepok (FLeaf o f v x vx l).
Proof.
  intros (F & NP & JJ & AT & CH) first nd m' p' RD H. cbn [tstep reads] in *. destruct (At_has _ _ _ _ _ AT) as (c & Hc).
  rewrite (get_ver_ok _ _ _ Hc) in H. cbn [lift] in H. destruct (N.eqb_spec vx (c_ver c)) as [V|V]; cbn [negb] in H;
    [|apply go_inv in H as (-> & ->); pure; cbn [TI]; auto].
  destruct (proj2 AT c Hc (eq_sym V)) as (a & k & w & Ha & -> & HO). pose proof (k_live_cell _ _ _ _ _ _ K Ha Hc) as R.
  destruct (nr_keys _ _ _ R _ _ HO) as (F1 & F2 & _). rewrite leaf_key_newLeaf in H by auto. cbn [lift] in H.
  apply go_inv in H as (-> & ->). pure. cbn [TI]. split; auto. split; auto. split; auto.
  destruct CH as (W & W1 & W2). exists W. split; auto. eapply is_prefix_trans; [apply (W2 a Ha)|]. eapply (holds_prefix r A I); eauto.
Qed.

Lemma s_FNext o f v y : TI m r A S (FNext o f v y) -> stepok (FNext o f v y).
Proof.
  intros (F & NP & JJ & Y0 & (c & Hc) & CH & b & W & DP) first nd m' p' RD H. cbn [tstep reads] in *.
  pose proof (rlock_inv m o _ _ _ m' p' c Hc (li_mod _ _ L _ _ Hc) H) as X; clear H; destruct X as (-> & [(U & ->)| ->]); pure; cbn [TI]; auto.
  split; auto. split; auto. split; auto. split; auto. split; [split; auto; exists c; split; auto; lia|]. intros c' Hc' _.
  pose proof (li_live _ _ L _ _ Hc Y0 U) as HA. destruct (A y) as [a|] eqn:Ha; [|contradiction]. exists a. split; auto.
  destruct (DP a Ha) as (t & ->). discriminate.
Qed.

Lemma s_IMis2 o f v fk : TI m r A S (IMis2 o f v fk) -> stepok (IMis2 o f v fk).
Proof.
  intros (F & NP & JJ & (W & W1 & W2)) first nd m' p' RD H. unfold reads_ok in RD. cbn [tstep reads] in *.
  apply lift_inv in H as [(p & E & H)|(_ & -> & ->)]; [|apply crash_ok; auto]. apply go_inv in H as (-> & ->). pure. cbn [TI]. split; auto. split; auto.
  destruct (J_read _ _ _ _ _ _ _ JJ RD) as [(c & Hc & V & -> & ((a & Ha & Hd & KP) & P8) & Q)|(Q & _)]; [|apply Q]. apply Q.
  pose proof (k_live_cell _ _ _ _ _ _ K Ha Hc) as R. specialize (P8 a Ha). rewrite <- (W1 a Ha) in W2. rewrite (nr_plen _ _ _ R) in E.
  destruct (mismatch_long (aW a) (op_key o) fk (aPL a) (f_depth f) ltac:(lia) ltac:(lia) (kp_put _ _ NP KP) W2) as (p2 & E2 & Q1 & Q2 & Q3).
  rewrite E in E2. apply Ok_inj in E2. subst p2. rewrite Ha. exists a. repeat split; auto.
Qed.

Lemma s_IPl o f v p fk : TI m r A S (IPl o f v p fk) -> stepok (IPl o f v p fk).
Proof.
  intros (F & NP & JJ) first nd m' p' RD H. unfold reads_ok in RD. cbn [tstep reads] in *. apply go_inv in H as (-> & ->).
  destruct (Nat.eqb_spec p (n_plen nd)) as [E|E]; pure; cbn [TI]; split; auto; split; auto;
  (destruct (J_read _ _ _ _ _ _ _ JJ RD) as [(c & Hc & V & -> & (a & Ha & Hd & Hp & HP & Hne & Hfk) & Q)|(Q & _)]; [|apply Q]); apply Q;
  pose proof (k_live_cell _ _ _ _ _ _ K Ha Hc) as R; rewrite (nr_plen _ _ _ R) in E; rewrite Ha.
  - exists a. split; auto. split; auto. subst p. rewrite firstn_all2 in HP by lia. exact HP.
  - exists a. split; auto. destruct o; try discriminate. cbn [op_key] in *. repeat split; auto; try lia. apply Hne. lia.
Qed.

Lemma s_IDep o f v : TI m r A S (IDep o f v) -> stepok (IDep o f v).
Proof.
  intros (F & NP & JJ) first nd m' p' RD H. unfold reads_ok in RD. cbn [tstep reads] in *.
  destruct (Nat.eqb_spec (f_depth f + n_plen nd) (length (op_key o))) as [E|E].
  - apply go_inv in H as (-> & ->). pure. cbn [TI]. split; auto. split; auto. split; [|discriminate].
    destruct (J_read _ _ _ _ _ _ _ JJ RD) as [(c & Hc & V & -> & (a & Ha & Hd & HP) & Q)|(Q & _)]; [|apply Q]. apply Q.
    pose proof (k_live_cell _ _ _ _ _ _ K Ha Hc) as R; rewrite (nr_plen _ _ _ R) in E; rewrite Ha.
    exists a. split; auto. destruct o; try discriminate. apply is_prefix_eq_len; auto. cbn [op_key] in *. lia.
  - destruct (Nat.ltb_spec (f_depth f + n_plen nd) (length (op_key o))) as [E2|E2].
    + apply go_inv in H as (-> & ->). pure. cbn [TI]. split; auto. split; auto. split; [lia|].
      destruct (J_read _ _ _ _ _ _ _ JJ RD) as [(c & Hc & V & -> & (a & Ha & Hd & HP) & Q)|(Q & _)]; [|apply Q]. apply Q.
      pose proof (k_live_cell _ _ _ _ _ _ K Ha Hc) as R; rewrite (nr_plen _ _ _ R); rewrite Ha.
      exists a. split; auto. split; [lia|]. left. auto.
    + change (go m (PCrash o) = SGo m' p') in H. apply go_inv in H as (-> & ->). apply crash_ok; auto.
Qed.

Lemma s_IFind o f v d : TI m r A S (IFind o f v d) -> stepok (IFind o f v d).
Proof.
  intros (F & NP & D & JJ) first nd m' p' RD H. unfold reads_ok in RD. cbn [tstep reads] in *.
  apply lift_inv in H as [(b & E & H)|(_ & -> & ->)]; [|apply crash_ok; auto].
  apply lift_inv in H as [(((nx & slot) & pos) & E2 & H)|(_ & -> & ->)]; [|apply crash_ok; auto]. apply go_inv in H as (-> & ->).
  assert (Eb : nth_error (op_key o) d = Some b). { unfold idx in E. destruct (nth_error (op_key o) d); [|discriminate]. now apply Ok_inj in E as ->. }
  pose proof (valid_byte o d b (fi_valid _ _ _ _ _ _ F) Eb) as Hb.
  pure. cbn [TI]. split; auto. split; auto.
  destruct (J_read _ _ _ _ _ _ _ JJ RD) as [(c & Hc & V & -> & (a & Ha & Hd & KP) & Q)|(Q & _)]; [|apply Q]. apply Q.
  pose proof (k_live_cell _ _ _ _ _ _ K Ha Hc) as R. destruct (find_rep _ _ _ R b Hb) as (s2 & q2 & E3 & SL).
  rewrite E2 in E3. apply Ok_inj in E3. inversion E3; subst. rewrite Ha. exists a. split; auto. split; auto. split; auto. right. exists b. auto.
Qed.

Lemma s_IFull o f v d : TI m r A S (IFull o f v d) -> stepok (IFull o f v d).
Proof.
  intros (F & NP & JJ) first nd m' p' RD H. unfold reads_ok in RD. cbn [tstep reads] in *.
  apply lift_inv in H as [(full & E & H)|(_ & -> & ->)]; [|apply crash_ok; auto]. apply go_inv in H as (-> & ->).
  assert (MF : J m A o f v (mu_fact o f (if full then MGrow d else MIns d))).
  { destruct (J_read _ _ _ _ _ _ _ JJ RD) as [(c & Hc & V & -> & (a & b & Ha & Hd & HP & Eb & EN) & Q)|(Q & _)]; [|apply Q]. apply Q.
    rewrite Ha. exists a. split; auto. destruct o; try discriminate. destruct full; (split; [auto|]; split; [auto|]; split; [auto|]; now exists b). }
  destruct full; pure; cbn [TI]; split; auto; split; auto. split; [exact MF|discriminate].
Qed.

Lemma s_IPar o f v d np slot : TI m r A S (IPar o f v d np slot) -> stepok (IPar o f v d np slot).
Proof.
  intros (F & NP & JJ & YY) first nd m' p' RD H. cbn [tstep reads] in *. destruct (par_cell o f F) as (cp & Hcp).
  pose proof (vcheck_inv m o _ _ _ _ m' p' cp Hcp H) as X; clear H; destruct X as (-> & [(V & ->)|(V & ->)]);
    [|apply start_ok; auto; exact (fi_valid _ _ _ _ _ _ F)].
  pose proof (J_At _ _ _ _ _ _ JJ (no_gone _ _ _ _ Hcp V)) as AT.
  destruct np as [y|l].
  - pure. cbn [TI]. destruct YY as [YY|YY]; [exfalso; exact (no_gone _ _ _ _ Hcp V YY)|]. destruct (YY y eq_refl) as (Y0 & Y1 & Y2 & Y3).
    pose proof (fi_cur _ _ _ _ _ _ F) as N0. constructor; cbn [f_cur f_par f_pv f_loc f_depth]; auto.
    + exact (fi_valid _ _ _ _ _ _ F).
    + lia.
    + contradiction.
    + eapply At_imp; [|exact AT]. intros nd' oa (a & b & p & pos & Ha & Hd & HP & Eb & Ech & Ep & SL) _. cbn [f_cur f_par f_pv f_loc f_depth].
      destruct p as [|y']; [discriminate|]. inversion Ep; subst y'. subst d. exists a, b, slot, pos. repeat split; auto; try lia. left. auto.
  - pure. cbn [TI]. split; auto. split; auto.
    assert (A2 : At m A (f_cur f) v (mu_fact o f (MExp d l slot))).
    { eapply At_imp; [|exact AT]. intros nd' oa (a & b & p & pos & Ha & Hd & HP & Eb & Ech & Ep & SL). exists a. split; auto.
      destruct o as [key value| |]; try discriminate. split; auto. split; auto. destruct p as [k0 v0|]; [|discriminate]. inversion Ep. exists b, pos, k0, v0. auto. }
    split; auto. now apply At_J.
Qed.

(** *** remove *)
Lemma s_DLeaf o f v l : TI m r A S (DLeaf o f v l) -> (forall x, val A (op_key o) x -> S x) -> stepok (DLeaf o f v l).
Proof.
  intros (F & NP & OD & JJ) SC first nd m' p' RD H. cbn [tstep reads] in *. destruct (cur_cell o f F) as (c & Hc).
  rewrite (get_ver_ok _ _ _ Hc) in H. cbn [lift] in H. destruct (N.eqb_spec v (c_ver c)) as [V|V]; cbn [negb] in H;
    [|apply go_inv in H as (-> & ->); apply start_ok; auto; exact (fi_valid _ _ _ _ _ _ F)].
  symmetry in V. destruct (J_now _ _ _ _ _ _ _ JJ Hc V) as [(X1 & _)|(a & Ha & Hd & KP & EL)]; [congruence|].
  pose proof (k_live_cell _ _ _ _ _ _ K Ha Hc) as R.
  assert (ST : forall Q : fact, Q (c_node c) (A (f_cur f)) -> J m A o f v Q).
  { intros Q HQ. eapply J_mk; [exact JJ|]. intros c' Hc' _ _. assert (c' = c) by congruence. now subst c'. }
  destruct l as [l|].
  - destruct (aLeaf a) as [w|] eqn:EA; [|discriminate]. inversion EL; subst l.
    assert (HO : holds a (aW a) w) by (left; auto). destruct (nr_keys _ _ _ R _ _ HO) as (F1 & _).
    rewrite leaf_match_newLeaf in H by auto. cbn [lift] in H. apply go_inv in H as (-> & ->).
    destruct (beqb (aW a) (op_key o)) eqn:EB; pure; cbn [TI]; split; auto; split; auto; [split; auto|]; apply ST.
    + rewrite Ha. exists a. split; auto. split; [now apply beqb_eq|congruence].
    + apply beqb_neq in EB. destruct KP as [KP|(_ & KP)]; [|exact KP]. exfalso. apply EB. apply is_prefix_eq_len; auto. lia.
  - cbn [lift] in H. apply go_inv in H as (-> & ->). pure. cbn [TI]. split; auto. split; auto. apply ST.
    destruct KP as [KP|(_ & KP)]; [|exact KP]. apply SC. destruct (aLeaf a) as [w|] eqn:EA; [discriminate|].
    replace None with (alookup a (op_key o)); [apply (val_at r A I (f_cur f) a); auto; eapply anext_end; eauto; lia|].
    rewrite lookup_val by auto. rewrite EA. now destruct (beqb _ _).
Qed.

Lemma par_type o f : FI m r A S o f -> exists pc, cell_at m (f_par f) = Some pc /\ (n_type (c_node pc) = Dummy <-> f_par f = 0).
Proof. intros F. destruct (par_cell o f F) as (pc & Hpc). exists pc. split; auto. exact (k_type _ _ _ K _ _ Hpc). Qed.

Lemma s_DCmp o f v : TI m r A S (DCmp o f v) -> stepok (DCmp o f v).
Proof.
  intros (F & NP & (k & ->) & JJ) first nd m' p' RD H. unfold reads_ok in RD. cbn [tstep reads] in *.
  destruct (par_type _ f F) as (cp & Hcp & PT). rewrite (get_node_ok _ _ _ Hcp) in H. cbn [lift] in H. apply go_inv in H as (-> & ->).
  assert (MF : J m A (ODelete k) f v (mu_fact (ODelete k) f (if shouldCompress nd (n_type (c_node cp)) then MCompress else MClear))).
  { destruct (J_read _ _ _ _ _ _ _ JJ RD) as [(c & Hc & V & -> & (a & Ha & EW & EL) & Q)|(Q & _)]; [|apply Q]. apply Q.
    rewrite Ha. exists a. split; auto. unfold shouldCompress. destruct (n_type (c_node c)) eqn:ET; cbn [op_key] in *; try (split; [auto|split; [auto|]]; intros _ (X & _); congruence).
    destruct (Nat.eqb_spec (n_num (c_node c)) 1) as [E1|E1]; cbn [andb].
    - destruct (n_type (c_node cp)) eqn:E2; cbn [ntype_eqb negb]; (split; [auto|split; [auto|]]); try (split; [auto|split; [auto|]]; intros X; apply PT in X; discriminate X).
      intros X. exfalso. apply X. now apply PT.
    - split; auto. split; auto. intros _ (_ & X). contradiction. }
  destruct (shouldCompress nd (n_type (c_node cp))); pure; cbn [TI]; split; auto; split; auto. split; [exact MF|].
  intros _. now apply (J_At' _ _ _ _ _ _ MF).
Qed.

Lemma s_DBug o f v : TI m r A S (DBug o f v) -> stepok (DBug o f v).
Proof.
  intros (F & NP & SN) first nd m' p' RD H. cbn [tstep reads] in *. destruct (cur_cell o f F) as (c & Hc).
  pose proof (vcheck_inv m o _ _ _ _ m' p' c Hc H) as X; clear H; destruct X as (-> & [(V & ->)|(V & ->)]).
  - apply start_ok; auto. exact (fi_valid _ _ _ _ _ _ F).
  - pure; cbn [TI]; auto. intros o' x X. inversion X; subst. right. destruct o'; auto. discriminate.
Qed.

Lemma s_DShr o f v d pos : TI m r A S (DShr o f v d pos) -> stepok (DShr o f v d pos).
Proof.
  intros (F & NP & (k & ->) & JJ) first nd m' p' RD H. unfold reads_ok in RD. cbn [tstep reads] in *.
  destruct (par_type _ f F) as (cp & Hcp & PT). rewrite (get_node_ok _ _ _ Hcp) in H. cbn [lift] in H.
  assert (SH : exists sh, shouldShrink nd (n_type (c_node cp)) = Ok sh /\
     J m A (ODelete k) f v (mu_fact (ODelete k) f (if sh then MShrink d else MRem pos))).
  { destruct (J_read _ _ _ _ _ _ _ JJ RD) as [(c & Hc & V & -> & (a & b & w & slot & Ha & Ld & Eb & Ech & SL) & Q)|(Q & [Q2|(c & Hc & SH)])]; [|discriminate|].
    - pose proof (k_live_cell _ _ _ _ _ _ K Ha Hc) as R. destruct (shrink_dec _ _ _ R b (n_type (c_node cp))) as (sh & E); [congruence|].
      exists sh. split; auto. apply Q. rewrite Ha. exists a. split; auto. subst d. cbn [op_key] in *. destruct sh.
      + split; auto. exists b, w, (n_type (c_node cp)). auto.
      + exists b, w, (n_type (c_node cp)), slot. auto 10.
    - destruct (shrink_shape _ _ (n_type (c_node cp)) SH) as (sh & E); [|exists sh; auto].
      intros X. apply (k_type _ _ _ K _ _ Hc) in X. exact (fi_cur _ _ _ _ _ _ F X). }
  destruct SH as (sh & E & MF). rewrite E in H. cbn [lift] in H. apply go_inv in H as (-> & ->).
  destruct sh; pure; cbn [TI]; split; auto; split; auto. split; [exact MF|]. intros _. now apply (J_At' _ _ _ _ _ _ MF).
Qed.

(** *** locks *)
Lemma FI_lock o f H n c : FI m r A S o f -> cell_at m n = Some c -> ~ In n H -> unl (c_ver c) -> FI (set_ver m n (c_ver c + 2)) r A S o f.
Proof. intros F Hc HN U. eapply FI_st; [apply (env_lock H n c); auto| |exact F]. intros x X; exact X. Qed.

Lemma s_LPar o f v mu : TI m r A S (LPar o f v mu) -> stepok (LPar o f v mu).
Proof.
  intros (F & TW & JJ) first nd m' p' RD H. cbn [tstep reads] in *. destruct (par_cell o f F) as (c & Hc).
  pose proof (vcas_inv m o _ _ _ _ m' p' c Hc H) as X; clear H; destruct X as [(V & -> & ->)|(V & -> & ->)].
  - pose proof (fi_link _ _ _ _ _ _ F) as LK. assert (U : unl (c_ver c)) by (rewrite V; apply LK). rewrite <- V.
    apply lock_ok; auto; [cm| |discriminate]. cbn [TI]. split; [eapply (FI_lock o f []); eauto|]. split; auto. split.
    + now apply Own_lock.
    + eapply At_st; [apply (env_lock [] _ c); auto|]. apply (J_At _ _ _ _ _ _ JJ). eapply no_gone; eauto.
  - apply start_ok; auto. exact (fi_valid _ _ _ _ _ _ F).
Qed.

Lemma s_LCur2 o f v mu : TI m r A S (LCur2 o f v mu) -> stepok (LCur2 o f v mu).
Proof.
  intros (F & TW & OW & AT) first nd m' p' RD H. cbn [tstep reads] in *. destruct (cur_cell o f F) as (c & Hc).
  pose proof (vcas_inv m o _ _ _ _ m' p' c Hc H) as X; clear H; destruct X as [(V & -> & ->)|(V & -> & ->)].
  - subst v. assert (U : unl (c_ver c)) by apply AT. pose proof (Own_ne _ _ _ _ _ OW Hc U) as NE.
    assert (EV : env [f_par f] m r A (set_ver m (f_cur f) (c_ver c + 2)) r A).
    { apply env_lock; auto. intros [X|[]]. congruence. }
    apply lock_ok; [cm|..]; auto; try discriminate.
    + cbn [held]. rewrite TW. apply Permutation_refl.
    + cbn [TI]. split; [eapply FI_st; [exact EV| |exact F]; intros x X; exact X|]. split.
      * now apply Own_lock.
      * intros _. eapply Own_st; [exact EV|left; auto|exact OW].
  - pure. cbn [TI]. split; [exact (fi_valid _ _ _ _ _ _ F)|]. constructor; [|constructor]. exact (At_has _ _ _ _ _ (fi_link _ _ _ _ _ _ F)).
Qed.

Lemma s_LCur1 o f v mu : TI m r A S (LCur1 o f v mu) -> stepok (LCur1 o f v mu).
Proof.
  intros (F & TW & JJ & AT) first nd m' p' RD H. cbn [tstep reads] in *. destruct (cur_cell o f F) as (c & Hc).
  pose proof (vcas_inv m o _ _ _ _ m' p' c Hc H) as X; clear H; destruct X as [(V & -> & ->)|(V & -> & ->)].
  - subst v. assert (U : unl (c_ver c)) by apply JJ.
    assert (EV : env [] m r A (set_ver m (f_cur f) (c_ver c + 2)) r A) by (apply env_lock; auto).
    pose proof (FI_st _ _ _ _ _ _ _ S S o f EV (fun x X => X) F) as F'.
    destruct (checks mu) eqn:CK; (apply lock_ok; [cm|..]; auto; try discriminate).
    + cbn [TI]. split; [exact F'|]. split; auto. split.
      * apply Own_lock; auto. split; [apply JJ|auto].
      * destruct JJ as (PA & [(_ & G)|Q]); [left; eapply Gone_st; eauto|right]. apply Own_lock; auto. split; auto.
    + cbn [held]. rewrite TW. apply Permutation_refl.
    + cbn [TI]. split; [exact F'|]. split; [apply Own_lock; auto|]. congruence.
  - apply start_ok; auto. exact (fi_valid _ _ _ _ _ _ F).
Qed.

Lemma s_LChk o f v mu : TI m r A S (LChk o f v mu) -> stepok (LChk o f v mu).
Proof.
  intros (F & TW & OW & G) first nd m' p' RD H. cbn [tstep reads] in *. destruct (par_cell o f F) as (c & Hc).
  pose proof (vcheck_inv m o _ _ _ _ m' p' c Hc H) as X; clear H; destruct X as (-> & [(V & ->)|(V & ->)]).
  - apply pure_ok; [cm| | | | |]; auto; [cbn [held]; now rewrite TW| |noret]. cbn [TI]. split; auto.
    destruct G as [G|G]; [exfalso; eapply no_gone; eauto|]. split; auto. congruence.
  - pure. cbn [TI]. split; [exact (fi_valid _ _ _ _ _ _ F)|]. constructor; [|constructor]. exact (fi_has _ _ _ _ _ _ F).
Qed.

Lemma link_own o f : Own m A (f_par f) (f_pv f) (f_link o S f) -> f_par f <> 0 ->
  exists pc, cell_at m (f_par f) = Some pc /\ link_fact f (c_node pc) (A (f_par f)).
Proof.
  intros (_ & c & Hc & _ & X) N. exists c. split; auto. destruct (X N) as (ap & b & s & q & E1 & E2 & E3 & E4 & E5 & _).
  exists ap, b, s, q. auto.
Qed.

Lemma unlocks_fst f mu : map fst (unlocks f mu) = lock_set f mu.
Proof. unfold unlocks, lock_set. now destruct (two mu). Qed.
Lemma unlocks_doom f mu : (two mu = false -> retires mu = false) -> map fst (filter snd (unlocks f mu)) = gone_set f mu.
Proof. intros H. unfold unlocks, gone_set. destruct (two mu); [now destruct (retires mu)|]. now rewrite H. Qed.
Lemma two_retires mu : two mu = false -> retires mu = false.
Proof. destruct mu; cbn; congruence. Qed.

Lemma commit_good p o f mu us m' : held p = map fst us -> doomed p = [] -> pc_op p = Some o -> valid_op o ->
  ~ committed p -> map fst (filter snd us) = gone_set f mu -> A (f_cur f) <> None -> f_cur f <> 0 ->
  incl (gone_set f mu) (map fst us) -> Forall (has m) (map fst us) -> root_fact r f -> (two mu = true -> In (f_par f) (map fst us)) ->
  post (map fst us) (gone_set f mu) m r A m' o -> good S p m r A m' (PUnlock o us true).
Proof.
  intros HH HD HO VO NC EG HA N0 IN HS RF PF (r' & A' & K' & EF & FR). exists r', A'. split.
  - apply (out_commit p m r A _ o); auto.
    + reflexivity.
    + cbn [doomed]. rewrite HH, EG. exact FR.
    + cbn [doomed]. rewrite EG, HH. intros n Hn. split; [now apply IN|]. unfold gone_set in *. destruct (retires mu); [|contradiction].
      destruct Hn as [<-|[]]. split; auto. destruct (A (f_cur f)) as [a|] eqn:Ha; [|contradiction]. apply (fr_gone _ _ _ _ _ _ _ _ FR _ a Ha). left; auto.
    + now exists us.
    + destruct (fr_root _ _ _ _ _ _ _ _ FR) as [->|(X & _)]; auto. right. rewrite HH.
      destruct (ai_root r A I) as (ar & Har & _). apply (fr_gone _ _ _ _ _ _ _ _ FR r ar Har) in X. unfold gone_set in X.
      destruct (retires mu) eqn:ER; [|contradiction]. destruct X as [X|[]]. destruct RF as [(E & _)|(_ & E)]; [|contradiction].
      rewrite <- E. apply PF. destruct (two mu) eqn:ET; auto. apply two_retires in ET. congruence.
  - split; auto. split; [|split; [now rewrite HO|noret]]. cbn [TI]. split; auto. eapply Forall_impl; [|exact HS]. intros n (c & Hc).
    destruct (fr_cell _ _ _ _ _ _ _ _ FR n c Hc) as (c' & Hc' & _). now exists c'.
Qed.

Lemma s_PWrite o f v mu : TI m r A S (PWrite o f v mu) -> stepok (PWrite o f v mu).
Proof.
  intros (F & OW & OP) first nd m' p' RD H. cbn [tstep reads] in *. destruct OW as (U & c & Hc & V & MF). pose proof MF as (a & Ha & _).
  rewrite (get_node_ok _ _ _ Hc) in H. cbn [bind] in H. pose proof (root_now o f F a Ha) as RF.
  pose proof (k_live_cell _ _ _ _ _ _ K Ha Hc) as R.
  destruct (child_lock_ok r A o f mu (c_node c) a _ I Ha ltac:(rewrite <- Ha; exact MF) R (root_par r f RF)) as (x & E & CL).
  rewrite E in H. cbn [lift] in H. destruct x as [(i, ch)|].
  - apply go_inv in H as (-> & ->). destruct (CL i ch eq_refl) as (TW & RT & b & Eb).
    destruct (ai_node r A I _ _ _ _ Ha Eb) as (ay & Hay & _). destruct (k_node _ _ _ K _ _ Hay) as (cy & Hcy & _).
    apply pure_ok; [cm| | | | |]; auto; [cbn [held]; now rewrite TW| |noret]. cbn [TI]. split; auto. split; auto. split; auto. split; [now exists cy|].
    split; auto. split; auto. exists c. split; auto. split; auto. split; auto.
  - destruct (commit_ok m r A K o f mu c (fi_valid _ _ _ _ _ _ F) Hc MF RF) as (m2 & E2 & PO); auto.
    { intros TW. apply (link_own o). auto. }
    rewrite E2 in H. cbn [lift] in H. injection H as <- <-.
    apply (commit_good _ o f mu); auto.
    + cbn [held]. now rewrite unlocks_fst.
    + exact (fi_valid _ _ _ _ _ _ F).
    + apply unlocks_doom. apply two_retires.
    + congruence.
    + exact (fi_cur _ _ _ _ _ _ F).
    + rewrite unlocks_fst. unfold gone_set, lock_set. destruct (retires mu) eqn:ER; [|intros x []].
      destruct (two mu); intros x [<-|[]]; left; auto.
    + rewrite unlocks_fst. unfold lock_set. destruct (two mu); repeat constructor; try exact (fi_has _ _ _ _ _ _ F). apply (par_cell o f F).
    + rewrite unlocks_fst. unfold lock_set. intros ->. right; left; auto.
    + rewrite unlocks_fst. exact PO.
Qed.

Lemma s_CWait o f v mu i ch : TI m r A S (CWait o f v mu i ch) -> stepok (CWait o f v mu i ch).
Proof.
  intros (F & TW & RT & (c & Hc) & OW & OP) first nd m' p' RD H. cbn [tstep reads] in *.
  pose proof (rlock_inv m o _ _ _ m' p' c Hc (li_mod _ _ L _ _ Hc) H) as X; clear H; destruct X as (-> & [(U & ->)| ->]); pure; cbn [TI].
  - split; auto. split; auto. split; auto. split; [split; auto; exists c; split; auto; lia|]. auto.
  - split; [exact (fi_valid _ _ _ _ _ _ F)|]. repeat constructor; [exact (fi_has _ _ _ _ _ _ F)|apply (par_cell o f F)].
Qed.

Lemma s_CCas o f v mu i ch vc : TI m r A S (CCas o f v mu i ch vc) -> stepok (CCas o f v mu i ch vc).
Proof.
  intros (F & TW & RT & PA & OW & OP) first nd m' p' RD H. cbn [tstep reads] in *. pose proof PA as (U & c & Hc & _).
  pose proof (vcas_inv m o _ _ _ _ m' p' c Hc H) as X; clear H; destruct X as [(V & -> & ->)|(V & -> & ->)].
  - rewrite <- V in *. pose proof (Own_ne _ _ _ _ _ OW Hc U) as N1. pose proof (Own_ne _ _ _ _ _ OP Hc U) as N2.
    assert (EV : env [f_cur f; f_par f] m r A (set_ver m ch (c_ver c + 2)) r A).
    { apply env_lock; auto. intros [X|[X|[]]]; congruence. }
    apply lock_ok; [cm|..]; auto; try discriminate. cbn [TI]. split; [eapply FI_st; [exact EV| |exact F]; intros x X; exact X|].
    split; auto. split; auto. split; [eapply has_st; [exact EV|now exists c]|].
    split; (eapply Own_st; [exact EV| |eassumption]); [left|right; left]; auto.
  - pure. cbn [TI]. split; auto. split; auto. split; auto. split; auto. now exists c.
Qed.

Lemma s_CWrite o f v mu i ch : TI m r A S (CWrite o f v mu i ch) -> stepok (CWrite o f v mu i ch).
Proof.
  intros (F & TW & RT & HC & OW & OP) first nd m' p' RD H. cbn [tstep reads] in *. destruct OW as (U & c & Hc & V & MF & CL). pose proof MF as (a & Ha & _).
  pose proof (root_now o f F a Ha) as RF.
  destruct (commit_child_ok m r A K o f mu c (fi_valid _ _ _ _ _ _ F) Hc MF RF) with (i := i) (ch := ch) as (m2 & E2 & PO); auto.
  { intros _. apply (link_own o). auto. }
  rewrite E2 in H. cbn [lift] in H. injection H as <- <-.
  apply (commit_good _ o f mu); auto.
  - cbn [held]. cbn [map fst]. rewrite unlocks_fst. unfold lock_set. now rewrite TW.
  - exact (fi_valid _ _ _ _ _ _ F).
  - cbn [filter snd]. apply unlocks_doom. apply two_retires.
  - congruence.
  - exact (fi_cur _ _ _ _ _ _ F).
  - cbn [map fst]. rewrite unlocks_fst. unfold gone_set, lock_set. rewrite RT, TW. intros x [<-|[]]. right; left; auto.
  - cbn [map fst]. rewrite unlocks_fst. unfold lock_set. rewrite TW. repeat constructor; auto; [exact (fi_has _ _ _ _ _ _ F)|apply (par_cell o f F)].
  - intros _. cbn [map fst]. rewrite unlocks_fst. unfold lock_set. rewrite TW. right; right; left; auto.
  - cbn [map fst]. rewrite unlocks_fst. exact PO.
Qed.

Lemma s_PUnlock o us done : TI m r A S (PUnlock o us done) -> stepok (PUnlock o us done).
Proof.
  intros (VO & HS) first nd m' p' RD H. cbn [tstep reads] in *. destruct us as [|(n, obs) us].
  - apply go_inv in H as (-> & ->). destruct done.
    + pure; [exact Logic.I|]. intros o' x X. left. inversion X. split; reflexivity.
    + apply start_ok; auto. discriminate.
  - inversion HS as [|x y (c & Hc) HS2]; subst. cbn [fst] in Hc. unfold vunlock in H. rewrite (get_ver_ok _ _ _ Hc) in H. cbn [lift] in H.
    injection H as <- <-. exists r, A. split; [eapply (out_unlock _ m r A _ n obs c); [cm|exact Hc|cbn [held doomed map fst filter snd]; reflexivity|cbn [held doomed map fst filter snd]]|].
    + destruct obs; reflexivity.
    + split; [eapply crep_set_ver; eauto|]. split; [|split; [reflexivity|noret]]. cbn [TI]. split; auto.
      eapply Forall_impl; [|exact HS2]. intros y (cy & Hcy). unfold has. rewrite (cell_set_ver m n c) by auto. destruct (Nat.eqb n y); eauto.
Qed.

Theorem tstep_ok p : TI m r A S p -> (forall o x, pc_op p = Some o -> val A (op_key o) x -> S x) -> stepok p.
Proof.
  intros T SC. destruct p; try (intros first nd m' p' _ H; discriminate H).
  - now apply s_PStart.
  - now apply s_PRoot.
  - now apply s_PDum.
  - now apply s_PLock.
  - now apply s_PPar.
  - now apply s_PRead0.
  - apply s_PRead1; auto. intros x. now apply SC.
  - now apply s_PRead2.
  - now apply s_PMiss.
  - apply s_PNext; auto. intros x. now apply SC.
  - now apply s_IMis.
  - now apply s_IMis1.
  - now apply s_FChk.
  - now apply s_FPar.
  - now apply s_FRd.
  - now apply s_FVal.
  - now apply s_FLeaf.
  - now apply s_FNext.
  - now apply s_IMis2.
  - now apply s_IPl.
  - now apply s_IDep.
  - now apply s_IFind.
  - now apply s_IFull.
  - now apply s_IPar.
  - apply s_DLeaf; auto. intros x. now apply SC.
  - now apply s_DCmp.
  - now apply s_DBug.
  - now apply s_DShr.
  - now apply s_LPar.
  - now apply s_LCur2.
  - now apply s_LCur1.
  - now apply s_LChk.
  - now apply s_PWrite.
  - now apply s_CWait.
  - now apply s_CCas.
  - now apply s_CWrite.
  - now apply s_PUnlock.
Qed.
End Own.
