(** * ArtConcSolo: a Get or Put that nobody disturbs returns. *)
From Coq Require Import Permutation.
From Verif Require Import Base BitsModel BitsFacts VecModel VecProofs VecProofs2 ArtNode
  ArtNodeProofs ArtNodeProofs2 ArtNodeProofs3 ArtModel ArtSpec ArtTree ArtTree2 ArtRep ArtRep2
  ArtTree3 ArtSeq ArtMono ArtSeq2 ArtSeq3 ArtConc ArtConcHeap ArtConcInv ArtConcStep ArtConcStep2 ArtConcSpec ArtConcGlobal ArtConcLin ArtConcLock.
Ltac Zify.zify_post_hook ::= Z.div_mod_to_equations.

(** ** The part of an operation that only reads *)
Section Read.
Context (m : mem) (r : nat) (A : aheap) (K : crep m r A) (L : LI m A) (S : seen).
Context (QU : forall n c, cell_at m n = Some c -> locked (c_ver c) = false).
Context (OB : forall n c, cell_at m n = Some c -> (c_ver c mod 4 = 1)%N -> n <> 0 /\ A n = None).
Context (D : nat) (HD : forall n a, A n = Some a -> length (aW a) <= D).
Let I : AInv r A := k_inv m r A K.

Definition now (n : nat) (v : N) : Prop := exists c, cell_at m n = Some c /\ c_ver c = v.
Definition ff (f : frame) : Prop := now (f_par f) (f_pv f) /\ A (f_cur f) <> None.

(** Nothing the goroutine remembers is out of date. *)
Definition fresh (p : pc) : Prop :=
  match p with
  | PStart _ => True
  | PRoot _ r0 => r0 = r
  | PDum _ w => now 0 w
  | PLock _ f => ff f
  | PPar _ f v | PRead0 _ f v | PRead1 _ f v | PMiss _ f v | IMis _ f v | IMis1 _ f v
  | FChk _ f v _ | FPar _ f v _ | IMis2 _ f v _ | IPl _ f v _ _ | IDep _ f v | IFull _ f v _
  | LPar _ f v _ | LCur1 _ f v _ => ff f /\ now (f_cur f) v
  | PRead2 _ f v d | PNext _ f v d _ _ _ | IPar _ f v d _ _ => (ff f /\ now (f_cur f) v) /\ f_depth f <= d
  | IFind o f v d => (ff f /\ now (f_cur f) v) /\ f_depth f <= d < length (op_key o)
  | FRd _ f v x vx | FLeaf _ f v x vx _ => (ff f /\ now (f_cur f) v) /\ now x vx
  | FVal _ f v x vx next => (ff f /\ now (f_cur f) v) /\ now x vx /\ next <> None
  | FNext _ f v y => (ff f /\ now (f_cur f) v) /\ A y <> None
  | _ => False
  end.

Definition wl (x : nat) : nat := match A x with Some a => length (aW a) | None => 0 end.
Definition W : nat := 4 * (D + 1) + 40.
Definition bigrank (o : op) (d n : nat) : nat := (length (op_key o) + 1 - d) * W + n.
Definition rank (p : pc) : nat :=
  match p with
  | PStart o => (length (op_key o) + 2) * W + 2
  | PRoot o _ | PDum o _ => (length (op_key o) + 2) * W + 1
  | PLock o f => bigrank o (f_depth f) (4 * (D + 1) + 36)
  | IMis o f _ => bigrank o (f_depth f) (4 * (D + 1) + 35)
  | FChk o f _ None => bigrank o (f_depth f) (4 * (D + 1) + 34)
  | FPar o f _ None => bigrank o (f_depth f) (4 * (D + 1) + 33)
  | FRd o f _ x _ => bigrank o (f_depth f) (4 * (D - wl x) + 33)
  | FVal o f _ x _ _ => bigrank o (f_depth f) (4 * (D - wl x) + 32)
  | FNext o f _ y => bigrank o (f_depth f) (4 * (D - wl y) + 34)
  | PPar o f _ => bigrank o (f_depth f) 30
  | PRead0 o f _ => bigrank o (f_depth f) 29
  | PRead1 o f _ => bigrank o (f_depth f) 28
  | PRead2 o f _ _ => bigrank o (f_depth f) 27
  | FLeaf o f _ _ _ _ => bigrank o (f_depth f) 25
  | FChk o f _ (Some _) => bigrank o (f_depth f) 24
  | FPar o f _ (Some _) => bigrank o (f_depth f) 23
  | IMis2 o f _ _ => bigrank o (f_depth f) 22
  | IMis1 o f _ => bigrank o (f_depth f) 21
  | IPl o f _ _ _ => bigrank o (f_depth f) 20
  | IDep o f _ => bigrank o (f_depth f) 19
  | IFind o f _ _ => bigrank o (f_depth f) 18
  | PNext o f _ _ _ _ _ => bigrank o (f_depth f) 17
  | IFull o f _ _ => bigrank o (f_depth f) 16
  | IPar o f _ _ _ _ => bigrank o (f_depth f) 15
  | PMiss o f _ => bigrank o (f_depth f) 14
  | LPar o f _ _ | LCur1 o f _ _ => bigrank o (f_depth f) 10
  | _ => 0
  end.

Lemma big_small o d n n' : n' < n -> bigrank o d n' < bigrank o d n.
Proof. unfold bigrank. lia. Qed.
Lemma big_deeper o d d' n n' : n' < W -> d < d' -> d' <= length (op_key o) -> bigrank o d' n' < bigrank o d n.
Proof.
  unfold bigrank. intros H1 H2 H3. set (a := length (op_key o) + 1 - d'). assert (HA : Datatypes.S a <= length (op_key o) + 1 - d) by lia.
  apply (Nat.mul_le_mono_r _ _ W) in HA. cbn [Nat.mul] in HA. lia.
Qed.

Lemma now_unl n v : A n <> None \/ n = 0 -> now n v -> unl v.
Proof.
  intros HN (c & Hc & <-). pose proof (li_mod _ _ L _ _ Hc) as M. pose proof (QU _ _ Hc) as Q. pose proof (mod4_bits (c_ver c)) as MB. rewrite Q in MB.
  unfold unl. destruct M as [M|[M|M]]; auto.
  - destruct (OB _ _ Hc M) as (X & Y). destruct HN; congruence.
  - destruct (obsolete (c_ver c)); cbn in MB; lia.
Qed.
Lemma live_now n : A n <> None -> exists c, cell_at m n = Some c /\ locked (c_ver c) = false /\ obsolete (c_ver c) = false.
Proof.
  intros HN. destruct (A n) as [a|] eqn:Ha; [|contradiction]. destruct (k_node _ _ _ K _ _ Ha) as (c & Hc & _). exists c. split; auto.
  apply unl_locked. apply (now_unl n); [left; congruence|now exists c].
Qed.
Lemma reads_now p n v : reads p = Some (n, v) -> now n v -> exists c, cell_at m n = Some c /\ c_ver c = v /\ forall nd, reads_ok m p nd -> nd = c_node c.
Proof.
  intros R (c & Hc & V). exists c. split; auto. split; auto. intros nd RD. unfold reads_ok in RD. rewrite R in RD. destruct RD as (c' & Hc' & X & _).
  unfold cell_at in Hc. assert (c' = c) by congruence. subst. auto.
Qed.
Lemma reads_any p : fresh p -> exists nd, reads_ok m p nd.
Proof.
  assert (X : forall n v, now n v -> exists nd, sees m n v nd).
  { intros n v (c & Hc & V). exists (c_node c). exists c. split; auto. split; [auto|congruence]. }
  intros F. unfold reads_ok. destruct p; cbn [reads fresh] in *; try (exists newNode4; exact Logic.I); try contradiction; apply X; intuition.
Qed.

(** One reading step. *)
Definition adv (p : pc) : Prop := forall first nd, reads_ok m p nd -> exists p', tstep first nd m p = SGo m p' /\ held p' = [] /\
  ((exists o x, p' = PRet o x) \/ (fresh p' /\ rank p' < rank p)).

Lemma adv_mk p' p first nd : tstep first nd m p = SGo m p' -> held p' = [] -> fresh p' -> rank p' < rank p ->
  exists p', tstep first nd m p = SGo m p' /\ held p' = [] /\ ((exists o x, p' = PRet o x) \/ (fresh p' /\ rank p' < rank p)).
Proof. intros. exists p'. auto. Qed.
Lemma adv_ret o x p first nd : tstep first nd m p = SGo m (PRet o x) ->
  exists p', tstep first nd m p = SGo m p' /\ held p' = [] /\ ((exists o x, p' = PRet o x) \/ (fresh p' /\ rank p' < rank p)).
Proof. intros. exists (PRet o x). split; auto. split; auto. left. eauto. Qed.

Lemma vcheck_now o a v ok bad : now a v -> vcheck m o a v ok bad = SGo m ok.
Proof. intros (c & Hc & V). unfold vcheck. rewrite (get_ver_ok _ _ _ Hc). cbn [lift]. rewrite V, N.eqb_refl. reflexivity. Qed.
Lemma rlock_now o a ok bad : A a <> None -> exists v, now a v /\ rlock m o a ok bad = SGo m (ok v).
Proof.
  intros HA. destruct (live_now a HA) as (c & Hc & X & Y). exists (c_ver c). split; [now exists c|]. unfold rlock. rewrite (get_ver_ok _ _ _ Hc). cbn [lift].
  now rewrite X, Y.
Qed.

(** What is known about the current node, without reservation. *)
Lemma J_fact o f v P : ff f -> now (f_cur f) v -> J m A o f v P -> exists c a, cell_at m (f_cur f) = Some c /\ c_ver c = v /\
  A (f_cur f) = Some a /\ nrep (Nat.eqb (f_cur f) r) (c_node c) a /\ P (c_node c) (Some a).
Proof.
  intros ((cp & Hcp & Vp) & HL) (c & Hc & V) JJ. destruct (A (f_cur f)) as [a|] eqn:Ha; [|contradiction]. exists c, a. split; auto. split; auto. split; auto.
  split; [exact (k_live_cell _ _ _ _ _ _ K Ha Hc)|]. destruct (J_now _ _ _ _ _ _ _ JJ Hc V) as [(_ & G)|X].
  - exfalso. exact (no_gone _ _ _ _ Hcp Vp G).
  - now rewrite Ha in X.
Qed.

Ltac small := cbn [rank]; apply big_small; lia.

Lemma a_PStart o : adv (PStart o).
Proof.
  intros first nd _. destruct first.
  - apply (adv_mk (PRoot o r)); auto; [|reflexivity|cbn [rank]; lia]. cbn [tstep]. now rewrite (k_root _ _ _ K).
  - destruct (k_dummy _ _ _ K) as (c & Hc). apply (adv_mk (PDum o (c_ver c))); auto; [|now exists c|cbn [rank]; lia].
    cbn [tstep]. rewrite (get_ver_ok _ _ _ Hc). cbn [lift]. now rewrite (QU _ _ Hc).
Qed.
Lemma root_ff w : now 0 w -> ff (mkF 0 0 w LRoot r).
Proof. intros H. split; cbn; auto. destruct (ai_root r A I) as (a & Ha & _). congruence. Qed.
Lemma root_rank o w n : n < W -> bigrank o (f_depth (mkF 0 0 w LRoot r)) n < (length (op_key o) + 2) * W + 1.
Proof. intros. unfold bigrank. cbn [f_depth]. rewrite Nat.sub_0_r, !Nat.mul_add_distr_r. lia. Qed.
Lemma a_PRoot o r0 : fresh (PRoot o r0) -> adv (PRoot o r0).
Proof.
  intros F first nd _. cbn [fresh] in F. subst r0. destruct (k_dummy _ _ _ K) as (c & Hc).
  apply (adv_mk (PLock o (mkF 0 0 (c_ver c) LRoot r))); auto.
  - cbn [tstep]. rewrite (get_ver_ok _ _ _ Hc). cbn [lift]. now rewrite (QU _ _ Hc).
  - apply root_ff. now exists c.
  - cbn [rank]. apply root_rank. unfold W. lia.
Qed.
Lemma a_PDum o w : fresh (PDum o w) -> adv (PDum o w).
Proof.
  intros F first nd _. cbn [fresh] in F. apply (adv_mk (PLock o (mkF 0 0 w LRoot r))); auto.
  - cbn [tstep]. now rewrite (k_root _ _ _ K).
  - now apply root_ff.
  - cbn [rank]. apply root_rank. unfold W. lia.
Qed.
Lemma a_PLock o f : fresh (PLock o f) -> adv (PLock o f).
Proof.
  intros F first nd _. cbn [fresh] in F.
  destruct (rlock_now o (f_cur f) (fun v => match o with OPut _ _ => IMis o f v | _ => PPar o f v end) (retry o) (proj2 F)) as (v & V & E).
  destruct o; eapply adv_mk; try exact E; try reflexivity; try (split; assumption); small.
Qed.
Lemma a_PPar o f v : fresh (PPar o f v) -> adv (PPar o f v).
Proof.
  intros (F & V) first nd _. apply (adv_mk (PRead0 o f v)); auto; [|split; auto|small]. cbn [tstep]. apply vcheck_now. apply F.
Qed.
Lemma a_PRead0 o f v : TI m r A S (PRead0 o f v) -> fresh (PRead0 o f v) -> adv (PRead0 o f v).
Proof.
  intros (FI0 & NP & JJ) (F & V) first nd RD. destruct (Nat.eqb (n_plen nd) 0) eqn:E.
  - apply (adv_mk (PRead2 o f v (f_depth f))); auto; [cbn [tstep]; now rewrite E|split; [split; auto|lia]|small].
  - apply (adv_mk (PRead1 o f v)); auto; [cbn [tstep]; now rewrite E|split; auto|small].
Qed.
Lemma a_PRead1 o f v : TI m r A S (PRead1 o f v) -> fresh (PRead1 o f v) -> adv (PRead1 o f v).
Proof.
  intros (FI0 & NP & JJ) (F & V) first nd RD.
  destruct (J_fact _ _ _ _ F V JJ) as (c & a & Hc & Vc & Ha & R & (a' & Ha' & Hd & KP)).
  assert (a' = a) by congruence. subst a'.
  destruct (reads_now (PRead1 o f v) _ _ eq_refl V) as (c' & Hc' & _ & RN). assert (c' = c) by congruence. subst c'. rewrite (RN nd RD). clear RD.
  destruct (rest_total (c_node c) (op_key o) (f_depth f)) as (d & ok & E & _).
  destruct ok.
  - apply (adv_mk (PRead2 o f v d)); auto; [cbn [tstep]; now rewrite E| |small]. split; [split; auto|].
    destruct (rest_spec _ _ _ _ _ _ _ R Hd E) as (X & _). rewrite X by auto. lia.
  - apply (adv_mk (PMiss o f v)); auto; [cbn [tstep]; now rewrite E|split; auto|small].
Qed.
Lemma a_PMiss o f v : fresh (PMiss o f v) -> adv (PMiss o f v).
Proof. intros (F & V) first nd _. apply (adv_ret o None). cbn [tstep]. now apply vcheck_now. Qed.
Lemma find_step o f (v : N) d c a b : cell_at m (f_cur f) = Some c -> nrep (Nat.eqb (f_cur f) r) (c_node c) a -> valid_op o ->
  nth_error (op_key o) d = Some b -> exists nx s q, findChild (c_node c) b = Ok (nx, s, q).
Proof.
  intros Hc R VO Eb. destruct (find_rep _ _ _ R b (valid_byte o d b VO Eb)) as (s & q & E & _). eauto.
Qed.
Lemma a_PRead2 o f v d : (exists k, o = OGet k) -> TI m r A S (PRead2 o f v d) -> fresh (PRead2 o f v d) -> adv (PRead2 o f v d).
Proof.
  intros (k & OG) (FI0 & NP & HK & JJ) ((F & V) & LD) first nd RD.
  destruct (J_fact _ _ _ _ F V JJ) as (c & a & Hc & Vc & Ha & R & _).
  destruct (reads_now (PRead2 o f v d) _ _ eq_refl V) as (c' & Hc' & _ & RN). assert (c' = c) by congruence. subst c'. rewrite (RN nd RD). clear RD.
  destruct (Nat.eqb_spec d (length (op_key o))) as [E|E].
  - eapply (adv_mk (PNext o f v d _ 0 0)); auto; [cbn [tstep]; rewrite (proj2 (Nat.eqb_eq _ _) E); subst o; reflexivity|split; [split; auto|auto]|small].
  - destruct (nth_error (op_key o) d) as [b|] eqn:Eb; [|apply nth_error_None in Eb; lia].
    destruct (find_step o f v d c a b Hc R (fi_valid _ _ _ _ _ _ FI0) Eb) as (nx & s & q & EF).
    apply (adv_mk (PNext o f v d nx s q)); auto; [|split; [split; auto|auto]|small].
    cbn [tstep]. rewrite (proj2 (Nat.eqb_neq _ _) E). rewrite (proj2 (Nat.ltb_lt d (length (op_key o)))) by lia.
    rewrite (idx_err _ _ _ Eb). cbn [lift]. rewrite EF. reflexivity.
Qed.
Lemma a_PNext o f v d next slot pos : (forall k, o <> ODelete k) -> TI m r A S (PNext o f v d next slot pos) -> fresh (PNext o f v d next slot pos) ->
  adv (PNext o f v d next slot pos).
Proof.
  intros ND (FI0 & HK & JJ) ((F & V) & LD) first nd _.
  destruct (J_fact _ _ _ _ F V JJ) as (c & a & Hc & Vc & Ha & R & (a' & Ha' & Hd & KP & NX)). assert (a' = a) by congruence. subst a'.
  assert (ST : forall X, lift m o (get_ver m (f_cur f)) (fun w => if negb (N.eqb v w) then go m (retry o) else X) = X).
  { intros X. rewrite (get_ver_ok _ _ _ Hc). cbn [lift]. now rewrite Vc, N.eqb_refl. }
  assert (LF : forall l, next = Some (PLeaf l) -> exists k w, l = newLeaf k w /\ holds a k w).
  { intros l ->. destruct NX as [(GO & E & EN)|(b & Eb & EN & SL)].
    - destruct (aLeaf a) as [w|] eqn:EL; [|discriminate]. inversion EN. exists (aW a), w. split; auto. left; auto.
    - destruct (aCh a b) as [[k w|y]|] eqn:Eq; try discriminate. inversion EN. exists k, w. split; auto. right. now exists b. }
  assert (CH : forall y, next = Some (PNode y) -> A y <> None /\ d < length (op_key o)).
  { intros y ->. destruct NX as [(GO & E & EN)|(b & Eb & EN & SL)]; [destruct (aLeaf a); discriminate|].
    destruct (aCh a b) as [[k w|y']|] eqn:Eq; try discriminate. inversion EN; subst y'.
    destruct (ai_node r A I _ _ _ _ Ha Eq) as (ay & Hay & _). split; [congruence|]. apply nth_error_Some. congruence. }
  destruct o as [key value|key|key]; [| |exfalso; eapply ND; reflexivity].
  - destruct next as [np|].
    + apply (adv_mk (IPar (OPut key value) f v d np slot)); auto; [cbn [tstep]; apply ST|split; [split; auto|auto]|small].
    + apply (adv_mk (IFull (OPut key value) f v d)); auto; [cbn [tstep]; apply ST|split; auto|small].
  - destruct next as [[y|l]|].
    + destruct (CH y eq_refl) as (LY & DK).
      apply (adv_mk (PLock (OGet key) (mkF (d + 1) (f_cur f) v (LSlot (f_cur f) slot) y))); auto; [cbn [tstep]; apply ST|split; cbn; auto|].
      cbn [rank f_depth]. apply big_deeper; [unfold W|..]; lia.
    + destruct (LF l eq_refl) as (k & w & -> & HO). destruct (nr_keys _ _ _ R _ _ HO) as (F1 & F2 & _).
      destruct (beqb k key) eqn:EB; [apply (adv_ret (OGet key) (Some w))|apply (adv_ret (OGet key) None)]; cbn [tstep]; rewrite ST, leaf_match_newLeaf by auto; cbn [lift]; rewrite EB; [|reflexivity].
      rewrite leaf_value_newLeaf by auto. reflexivity.
    + apply (adv_ret (OGet key) None). cbn [tstep]. apply ST.
Qed.

(** insert *)
Lemma a_IMis o f v : TI m r A S (IMis o f v) -> fresh (IMis o f v) -> adv (IMis o f v).
Proof.
  intros (FI0 & NP & JJ) (F & V) first nd RD. destruct (Nat.leb (n_plen nd) maxPrefixLen) eqn:E.
  - apply (adv_mk (IMis1 o f v)); auto; [cbn [tstep]; now rewrite E|split; auto|small].
  - apply (adv_mk (FChk o f v None)); auto; [cbn [tstep]; now rewrite E|split; auto|small].
Qed.
Lemma a_IMis1 o f v : TI m r A S (IMis1 o f v) -> fresh (IMis1 o f v) -> adv (IMis1 o f v).
Proof.
  intros (FI0 & NP & JJ) (F & V) first nd RD.
  destruct (J_fact _ _ _ _ F V JJ) as (c & a & Hc & Vc & Ha & R & ((a' & Ha' & Hd & KP) & P8)). assert (a' = a) by congruence. subst a'.
  destruct (reads_now (IMis1 o f v) _ _ eq_refl V) as (c' & Hc' & _ & RN). assert (c' = c) by congruence. subst c'. rewrite (RN nd RD). clear RD.
  specialize (P8 a eq_refl). destruct (mismatch_short _ _ a (op_key o) (f_depth f) R ltac:(lia) (kp_put _ _ _ NP KP) P8) as (p2 & E2 & _).
  apply (adv_mk (IPl o f v p2 [])); auto; [cbn [tstep]; now rewrite E2|split; auto|small].
Qed.
Lemma a_FChk o f v got : fresh (FChk o f v got) -> adv (FChk o f v got).
Proof.
  intros (F & V) first nd _. apply (adv_mk (FPar o f v got)); auto; [cbn [tstep]; now apply vcheck_now|split; auto|].
  destruct got; small.
Qed.
Lemma a_FPar o f v got : fresh (FPar o f v got) -> adv (FPar o f v got).
Proof.
  intros (F & V) first nd _. destruct got as [fk|].
  - apply (adv_mk (IMis2 o f v fk)); auto; [cbn [tstep]; apply vcheck_now; apply F|split; auto|small].
  - apply (adv_mk (FRd o f v (f_cur f) v)); auto; [cbn [tstep]; apply vcheck_now; apply F|split; [split; auto|auto]|small].
Qed.
Lemma At_fact n v P : now n v -> At m A n v P -> exists c, cell_at m n = Some c /\ c_ver c = v /\ P (c_node c) (A n).
Proof. intros (c & Hc & V) (_ & X). exists c. auto. Qed.
Lemma wl_eq n a : A n = Some a -> wl n = length (aW a).
Proof. unfold wl. now intros ->. Qed.
Lemma a_FRd o f v x vx : TI m r A S (FRd o f v x vx) -> fresh (FRd o f v x vx) -> adv (FRd o f v x vx).
Proof.
  intros (FI0 & NP & JJ & AT & CH) ((F & V) & VX) first nd RD.
  destruct (At_fact _ _ _ VX AT) as (c & Hc & Vc & (a & Ha & N)). pose proof (k_live_cell _ _ _ _ _ _ K Ha Hc) as R.
  destruct (reads_now (FRd o f v x vx) _ _ eq_refl VX) as (c' & Hc' & _ & RN). assert (c' = c) by congruence. subst c'. rewrite (RN nd RD). clear RD.
  destruct (n_pleaf (c_node c)) as [l|] eqn:EL.
  - apply (adv_mk (FLeaf o f v x vx l)); auto; [cbn [tstep]; now rewrite EL|split; [split; auto|auto]|small].
  - assert (ER : Nat.eqb x r = false).
    { apply Nat.eqb_neq. intros ->. destruct (ai_root r A I) as (ar & Hr & E1 & _). congruence. }
    pose proof (nr_occ _ _ _ R ER) as OC. rewrite (nr_pleaf _ _ _ R) in EL. destruct (aLeaf a) as [w|] eqn:EA; [discriminate|]. cbn [nleaf] in OC.
    destruct (firstChild_spec (c_node c) (nr_layout _ _ _ R)) as (b & p & E2 & E3); [lia|].
    apply (adv_mk (FVal o f v x vx (Some p))); auto; [|split; [split; auto|split; [auto|discriminate]]|small].
    cbn [tstep]. rewrite (nr_pleaf _ _ _ R), EA. cbn. now rewrite E2.
Qed.
Lemma a_FVal o f v x vx next : TI m r A S (FVal o f v x vx next) -> fresh (FVal o f v x vx next) -> adv (FVal o f v x vx next).
Proof.
  intros (FI0 & NP & JJ & AT & CH) ((F & V) & VX & NN) first nd _. destruct next as [p|]; [|contradiction].
  destruct (At_fact _ _ _ VX AT) as (c & Hc & Vc & (a & Ha & Q)). destruct (Q p eq_refl) as (b & q & Eb & Ep).
  destruct p as [y|l].
  - destruct q as [|y']; [discriminate|]. inversion Ep; subst y'. destruct (ai_node r A I _ _ _ _ Ha Eb) as (ay & Hay & _ & LL).
    apply (adv_mk (FNext o f v y)); auto.
    + cbn [tstep]. rewrite (get_ver_ok _ _ _ Hc). cbn [lift]. now rewrite Vc, N.eqb_refl.
    + split; [split; auto|congruence].
    + cbn [rank]. apply big_small. rewrite (wl_eq _ _ Ha), (wl_eq _ _ Hay). pose proof (HD _ _ Hay). lia.
  - apply (adv_mk (FLeaf o f v x vx l)); auto; [|split; [split; auto|auto]|small].
    cbn [tstep]. rewrite (get_ver_ok _ _ _ Hc). cbn [lift]. now rewrite Vc, N.eqb_refl.
Qed.
Lemma a_FLeaf o f v x vx l : TI m r A S (FLeaf o f v x vx l) -> fresh (FLeaf o f v x vx l) -> adv (FLeaf o f v x vx l).
Proof.
  intros (FI0 & NP & JJ & AT & CH) ((F & V) & VX) first nd _.
  destruct (At_fact _ _ _ VX AT) as (c & Hc & Vc & (a & k & w & Ha & -> & HO)). pose proof (k_live_cell _ _ _ _ _ _ K Ha Hc) as R.
  destruct (nr_keys _ _ _ R _ _ HO) as (F1 & F2 & _).
  apply (adv_mk (FChk o f v (Some k))); auto; [|split; auto|small].
  cbn [tstep]. rewrite (get_ver_ok _ _ _ Hc). cbn [lift]. rewrite Vc, N.eqb_refl. cbn [negb]. now rewrite leaf_key_newLeaf by auto.
Qed.
Lemma a_FNext o f v y : fresh (FNext o f v y) -> adv (FNext o f v y).
Proof.
  intros ((F & V) & LY) first nd _. destruct (rlock_now o y (fun vy => FRd o f v y vy) (FChk o f v None) LY) as (vy & VY & E).
  apply (adv_mk (FRd o f v y vy)); auto; [split; [split; auto|auto]|small].
Qed.
Lemma a_IMis2 o f v fk : TI m r A S (IMis2 o f v fk) -> fresh (IMis2 o f v fk) -> adv (IMis2 o f v fk).
Proof.
  intros (FI0 & NP & JJ & (w & W1 & W2)) (F & V) first nd RD.
  destruct (J_fact _ _ _ _ F V JJ) as (c & a & Hc & Vc & Ha & R & ((a' & Ha' & Hd & KP) & P8)). assert (a' = a) by congruence. subst a'.
  destruct (reads_now (IMis2 o f v fk) _ _ eq_refl V) as (c' & Hc' & _ & RN). assert (c' = c) by congruence. subst c'. rewrite (RN nd RD). clear RD.
  rewrite <- (W1 a Ha) in W2.
  destruct (mismatch_long (aW a) (op_key o) fk (aPL a) (f_depth f) ltac:(lia) ltac:(pose proof (P8 a eq_refl); lia) (kp_put _ _ _ NP KP) W2) as (p2 & E2 & _).
  apply (adv_mk (IPl o f v (p2 - f_depth f) fk)); auto; [|split; auto|small]. cbn [tstep]. rewrite (nr_plen _ _ _ R). now rewrite E2.
Qed.
Lemma a_IPl o f v p fk : fresh (IPl o f v p fk) -> adv (IPl o f v p fk).
Proof.
  intros (F & V) first nd RD. destruct (Nat.eqb p (n_plen nd)) eqn:E.
  - apply (adv_mk (IDep o f v)); auto; [cbn [tstep]; now rewrite E|split; auto|small].
  - apply (adv_mk (LPar o f v (MSplit p fk))); auto; [cbn [tstep]; now rewrite E|split; auto|small].
Qed.
Lemma a_IDep o f v : TI m r A S (IDep o f v) -> fresh (IDep o f v) -> adv (IDep o f v).
Proof.
  intros (FI0 & NP & JJ) (F & V) first nd RD.
  destruct (J_fact _ _ _ _ F V JJ) as (c & a & Hc & Vc & Ha & R & (a' & Ha' & Hd & HP)). assert (a' = a) by congruence. subst a'.
  destruct (reads_now (IDep o f v) _ _ eq_refl V) as (c' & Hc' & _ & RN). assert (c' = c) by congruence. subst c'. rewrite (RN nd RD). clear RD.
  apply is_prefix_length in HP. rewrite <- (nr_plen _ _ _ R) in Hd.
  destruct (Nat.eqb_spec (f_depth f + n_plen (c_node c)) (length (op_key o))) as [E|E].
  - apply (adv_mk (LCur1 o f v MLeaf)); auto; [cbn [tstep]; now rewrite (proj2 (Nat.eqb_eq _ _) E)|split; auto|small].
  - apply (adv_mk (IFind o f v (f_depth f + n_plen (c_node c)))); auto; [|split; [split; auto|lia]|small].
    cbn [tstep]. rewrite (proj2 (Nat.eqb_neq _ _) E). now rewrite (proj2 (Nat.ltb_lt (f_depth f + n_plen (c_node c)) (length (op_key o)))) by lia.
Qed.
Lemma a_IFind o f v d : TI m r A S (IFind o f v d) -> fresh (IFind o f v d) -> adv (IFind o f v d).
Proof.
  intros (FI0 & NP & HK & JJ) ((F & V) & LD & DK) first nd RD.
  destruct (J_fact _ _ _ _ F V JJ) as (c & a & Hc & Vc & Ha & R & _).
  destruct (reads_now (IFind o f v d) _ _ eq_refl V) as (c' & Hc' & _ & RN). assert (c' = c) by congruence. subst c'. rewrite (RN nd RD). clear RD.
  destruct (nth_error (op_key o) d) as [b|] eqn:Eb; [|apply nth_error_None in Eb; lia].
  destruct (find_step o f v d c a b Hc R (fi_valid _ _ _ _ _ _ FI0) Eb) as (nx & s & q & EF).
  apply (adv_mk (PNext o f v d nx s q)); auto; [|split; [split; auto|auto]|small].
  cbn [tstep]. rewrite (idx_err _ _ _ Eb). cbn [lift]. rewrite EF. reflexivity.
Qed.
Lemma a_IFull o f v d : TI m r A S (IFull o f v d) -> fresh (IFull o f v d) -> adv (IFull o f v d).
Proof.
  intros (FI0 & NP & JJ) (F & V) first nd RD.
  destruct (J_fact _ _ _ _ F V JJ) as (c & a & Hc & Vc & Ha & R & _).
  destruct (reads_now (IFull o f v d) _ _ eq_refl V) as (c' & Hc' & _ & RN). assert (c' = c) by congruence. subst c'. rewrite (RN nd RD). clear RD.
  assert (EF : exists full, isFull (c_node c) = Ok full).
  { unfold isFull. pose proof (nr_layout _ _ _ R) as LY. destruct (n_type (c_node c)) eqn:ET; eauto.
    exfalso. apply (k_type _ _ _ K _ _ Hc) in ET. exact (fi_cur _ _ _ _ _ _ FI0 ET). }
  destruct EF as (full & E). destruct full.
  - apply (adv_mk (LPar o f v (MGrow d))); auto; [cbn [tstep]; now rewrite E|split; auto|small].
  - apply (adv_mk (LCur1 o f v (MIns d))); auto; [cbn [tstep]; now rewrite E|split; auto|small].
Qed.
Lemma a_IPar o f v d np slot : TI m r A S (IPar o f v d np slot) -> fresh (IPar o f v d np slot) -> adv (IPar o f v d np slot).
Proof.
  intros (FI0 & NP & JJ & _) ((F & V) & LD) first nd _.
  destruct (J_fact _ _ _ _ F V JJ) as (c & a & Hc & Vc & Ha & R & (a' & b & q & pos & Ha' & Hd & HP & Eb & Ech & Ep & SL)). assert (a' = a) by congruence. subst a'.
  destruct np as [y|l].
  - destruct q as [|y']; [discriminate|]. inversion Ep; subst y'. destruct (ai_node r A I _ _ _ _ Ha Ech) as (ay & Hay & _).
    apply (adv_mk (PLock o (mkF (d + 1) (f_cur f) v (LSlot (f_cur f) slot) y))); auto.
    + cbn [tstep]. apply vcheck_now. apply F.
    + split; cbn; auto. congruence.
    + assert (d < length (op_key o)) by (apply nth_error_Some; congruence). cbn [rank f_depth]. apply big_deeper; [unfold W|..]; lia.
  - apply (adv_mk (LCur1 o f v (MExp d l slot))); auto; [cbn [tstep]; apply vcheck_now; apply F|split; auto|small].
Qed.

Lemma adv_all p o : pc_op p = Some o -> (forall k, o <> ODelete k) -> TI m r A S p -> fresh p ->
  (forall o f v mu, p <> LPar o f v mu) -> (forall o f v mu, p <> LCur1 o f v mu) -> adv p.
Proof.
  intros EO ND T F N1 N2. destruct p; cbn [pc_op] in EO; try discriminate; inversion EO; subst; try contradiction.
  - apply a_PStart.
  - now apply a_PRoot.
  - now apply a_PDum.
  - now apply a_PLock.
  - now apply a_PPar.
  - now apply a_PRead0.
  - now apply a_PRead1.
  - apply a_PRead2; auto. destruct T as (_ & NP & _). destruct o as [k v0|k|k]; [discriminate|eauto|exfalso; eapply ND; eauto].
  - now apply a_PMiss.
  - now apply a_PNext.
  - now apply a_IMis.
  - now apply a_IMis1.
  - now apply a_FChk.
  - now apply a_FPar.
  - now apply a_FRd.
  - now apply a_FVal.
  - now apply a_FLeaf.
  - now apply a_FNext.
  - now apply a_IMis2.
  - now apply a_IPl.
  - now apply a_IDep.
  - now apply a_IFind.
  - now apply a_IFull.
  - now apply a_IPar.
  - exfalso. eapply N1; eauto.
  - exfalso. eapply N2; eauto.
Qed.

(** A step that takes no lock and changes nothing keeps the invariant. *)
Lemma adv_TI p p' o first nd : TI m r A S p -> pc_op p = Some o -> (forall x, val A (op_key o) x -> S x) -> fresh p -> fresh p' ->
  reads_ok m p nd -> tstep first nd m p = SGo m p' -> TI m r A S p' /\ pc_op p' = Some o.
Proof.
  intros T EO SC F F' RD ST.
  assert (H0 : held p = []) by (destruct p; cbn in *; auto; contradiction).
  assert (H0' : held p' = []) by (destruct p'; cbn in *; auto; contradiction).
  destruct (tstep_ok m r A K L S p T ltac:(intros o' x E V; assert (o' = o) by congruence; subst; auto) first nd m p' RD ST) as (r' & A' & O & _ & T' & EO' & _).
  split; [|congruence]. inversion O; subst; auto; exfalso.
  - match goal with H : Permutation _ _ |- _ => rewrite H0, H0' in H; apply Permutation_nil in H; discriminate end.
  - rewrite H0 in *. discriminate.
  - match goal with H : exists us, _ |- _ => destruct H as (us & ->) end. exact F'.
Qed.
End Read.

(** ** The part that writes *)
Section Write.
Context (t : nat).

Lemma fin_unlock us o : forall s, s_thr s t = PUnlock o us true -> Forall (has (s_mem s)) (map fst us) -> finishes t s.
Proof.
  induction us as [|(a, obs) us IH]; intros s E HF; (apply fin_step; [|intros s' ST]).
  - eexists. eapply step_tau with (first := true) (nd := newNode4); rewrite E; [exact Logic.I|reflexivity].
  - inversion ST as [| |t0 first nd m' p' RD SS]; subst. rewrite E in SS. cbn [tstep] in SS. apply go_inv in SS as (-> & ->).
    eapply fin_ret. cbn [s_thr]. apply upd_eq.
  - inversion HF as [|? ? (c & Hc) HF']; subst. cbn [fst] in Hc. eexists. eapply step_tau with (first := true) (nd := newNode4); rewrite E; [exact Logic.I|].
    cbn [tstep]. unfold vunlock. rewrite (get_ver_ok _ _ _ Hc). reflexivity.
  - inversion HF as [|? ? (c & Hc) HF']; subst. cbn [fst] in Hc. inversion ST as [| |t0 first nd m' p' RD SS]; subst. rewrite E in SS. cbn [tstep] in SS.
    unfold vunlock in SS. rewrite (get_ver_ok _ _ _ Hc) in SS. cbn [lift] in SS. injection SS as <- <-.
    apply IH; [cbn [s_thr]; apply upd_eq|]. cbn [s_mem]. eapply Forall_impl; [|exact HF']. intros x (cx & Hx). unfold has. rewrite (cell_set_ver _ _ c) by auto.
    destruct (Nat.eqb a x); eauto.
Qed.

(** If every step of the goroutine is the given one, it is enough to look at that. *)
Lemma fin_one s m' p' : (exists nd, reads_ok (s_mem s) (s_thr s t) nd) ->
  (forall first nd, reads_ok (s_mem s) (s_thr s t) nd -> tstep first nd (s_mem s) (s_thr s t) = SGo m' p') ->
  finishes t (mkSys m' (upd_thr (s_thr s) t p')) -> finishes t s.
Proof.
  intros (nd & RD) H F. apply fin_step.
  - eexists. eapply step_tau; [exact RD|]. apply (H true); auto.
  - intros s' ST. inversion ST as [| |t0 first nd0 m2 p2 RD0 SS]; subst. rewrite (H first nd0 RD0) in SS. injection SS as <- <-. exact F.
Qed.

Lemma exec_one h s m' p' first nd : exec h s -> reads_ok (s_mem s) (s_thr s t) nd -> tstep first nd (s_mem s) (s_thr s t) = SGo m' p' ->
  exec (h ++ [ETau t]) (mkSys m' (upd_thr (s_thr s) t p')).
Proof. intros. econstructor; eauto. eapply step_tau; eauto. Qed.

Lemma pulled_put n mu key k v f oa : mu_fact (OPut k v) f mu n oa -> pulled n mu key = Ok None.
Proof. intros (a & _ & M). destruct mu; try contradiction; reflexivity. Qed.

Lemma fin_PWrite h s k v f w mu : exec h s -> s_thr s t = PWrite (OPut k v) f w mu -> finishes t s.
Proof.
  intros E ET. destruct (GI_exec _ _ E) as (r & A & S & G). pose proof (g_rep _ _ _ _ _ G) as K. pose proof (LK_LI _ _ _ (g_lk _ _ _ _ _ G)) as L.
  pose proof (g_thr _ _ _ _ _ G t) as T. rewrite ET in T. cbn [TI] in T. destruct T as (F & OW & OP). destruct OW as (U & c & Hc & V & MF). pose proof MF as (a & Ha & _).
  pose proof (root_now _ _ _ _ _ _ F a Ha) as RF.
  destruct (commit_ok (s_mem s) r A K (OPut k v) f mu c (fi_valid _ _ _ _ _ _ F) Hc MF RF) as (m2 & E2 & _).
  { intros TW. eapply link_own; eauto. }
  { unfold child_lock. now rewrite (pulled_put _ _ _ _ _ _ _ MF). }
  assert (ST : forall first nd, tstep first nd (s_mem s) (s_thr s t) = SGo m2 (PUnlock (OPut k v) (unlocks f mu) true)).
  { intros. rewrite ET. cbn [tstep]. rewrite (get_node_ok _ _ _ Hc). cbn [bind]. unfold child_lock. rewrite (pulled_put _ _ _ _ _ _ _ MF). cbn [bind lift]. rewrite E2. reflexivity. }
  assert (RD : reads_ok (s_mem s) (s_thr s t) newNode4) by (rewrite ET; exact Logic.I).
  apply (fin_one s m2 (PUnlock (OPut k v) (unlocks f mu) true)); eauto.
  pose proof (exec_one _ _ _ _ true newNode4 E RD (ST true newNode4)) as E3. destruct (GI_exec _ _ E3) as (r3 & A3 & S3 & G3).
  pose proof (g_thr _ _ _ _ _ G3 t) as T3. cbn [s_thr s_mem] in T3. rewrite upd_eq in T3. destruct T3 as (_ & T3).
  eapply fin_unlock; [cbn [s_thr]; apply upd_eq|exact T3].
Qed.

Lemma now_set_ver m n v x w c : cell_at m x = Some c -> n <> x -> now m n v -> now (set_ver m x w) n v.
Proof. intros Hc N (cn & Hn & V). exists cn. split; auto. rewrite (cell_set_ver _ _ c) by auto. rewrite (proj2 (Nat.eqb_neq x n)); auto. Qed.

(** The current node is not its own parent. *)
Lemma cur_par m r A S o f : crep m r A -> FI m r A S o f -> now m (f_par f) (f_pv f) -> f_cur f <> f_par f.
Proof.
  intros K F (cp & Hcp & Vp) E. destruct (Nat.eq_dec (f_par f) 0) as [E0|E0]; [exact (fi_cur _ _ _ _ _ _ F (eq_trans E E0))|].
  destruct (proj2 (fi_link _ _ _ _ _ _ F) cp Hcp Vp E0) as (ap & b & sl & q & Hap & Hb & _).
  destruct (ai_node r A (k_inv _ _ _ K) _ _ _ _ Hap Hb) as (ac & Hac & _ & LL). rewrite E in Hac. assert (ac = ap) by congruence. subst. lia.
Qed.

Lemma vcas_now m o n v ok bad : now m n v -> vcas m o n v ok bad = SGo (set_ver m n (v + 2)) ok.
Proof. intros (c & Hc & V). unfold vcas. rewrite (get_ver_ok _ _ _ Hc). cbn [lift]. now rewrite V, N.eqb_refl. Qed.

Lemma fin_LPar h s k v f w mu : exec h s -> s_thr s t = LPar (OPut k v) f w mu -> now (s_mem s) (f_par f) (f_pv f) -> now (s_mem s) (f_cur f) w -> finishes t s.
Proof.
  intros E ET NP NC. destruct (GI_exec _ _ E) as (r & A & S & G). pose proof (g_rep _ _ _ _ _ G) as K.
  pose proof (g_thr _ _ _ _ _ G t) as T. rewrite ET in T. cbn [TI] in T. destruct T as (F & _).
  pose proof (cur_par _ _ _ _ _ _ K F NP) as NE. pose proof NP as (cp & Hcp & Vp).
  assert (RD : reads_ok (s_mem s) (s_thr s t) newNode4) by (rewrite ET; exact Logic.I).
  assert (ST : forall first nd, tstep first nd (s_mem s) (s_thr s t) = SGo (set_ver (s_mem s) (f_par f) (f_pv f + 2)) (LCur2 (OPut k v) f w mu)).
  { intros. rewrite ET. cbn [tstep]. now apply vcas_now. }
  eapply fin_one; eauto. pose proof (exec_one _ _ _ _ true newNode4 E RD (ST true newNode4)) as E1.
  set (s1 := mkSys _ _) in *. assert (ET1 : s_thr s1 t = LCur2 (OPut k v) f w mu) by (cbn [s1 s_thr]; apply upd_eq).
  assert (NC1 : now (s_mem s1) (f_cur f) w) by (eapply now_set_ver; eauto). clearbody s1.
  assert (RD1 : reads_ok (s_mem s1) (s_thr s1 t) newNode4) by (rewrite ET1; exact Logic.I).
  assert (ST1 : forall first nd, tstep first nd (s_mem s1) (s_thr s1 t) = SGo (set_ver (s_mem s1) (f_cur f) (w + 2)) (PWrite (OPut k v) f w mu)).
  { intros. rewrite ET1. cbn [tstep]. now apply vcas_now. }
  eapply fin_one; eauto. eapply fin_PWrite; [|cbn [s_thr]; apply upd_eq]. eapply exec_one; [exact E1|exact RD1|apply (ST1 true newNode4)].
Qed.

Lemma fin_LCur1 h s k v f w mu : exec h s -> s_thr s t = LCur1 (OPut k v) f w mu -> now (s_mem s) (f_par f) (f_pv f) -> now (s_mem s) (f_cur f) w -> finishes t s.
Proof.
  intros E ET NP NC. destruct (GI_exec _ _ E) as (r & A & S & G). pose proof (g_rep _ _ _ _ _ G) as K.
  pose proof (g_thr _ _ _ _ _ G t) as T. rewrite ET in T. cbn [TI] in T. destruct T as (F & _).
  pose proof (cur_par _ _ _ _ _ _ K F NP) as NE. pose proof NC as (cp & Hcp & Vp).
  assert (RD : reads_ok (s_mem s) (s_thr s t) newNode4) by (rewrite ET; exact Logic.I).
  assert (ST : forall first nd, tstep first nd (s_mem s) (s_thr s t) = SGo (set_ver (s_mem s) (f_cur f) (w + 2)) (if checks mu then LChk (OPut k v) f w mu else PWrite (OPut k v) f w mu)).
  { intros. rewrite ET. cbn [tstep]. now apply vcas_now. }
  eapply fin_one; eauto. pose proof (exec_one _ _ _ _ true newNode4 E RD (ST true newNode4)) as E1. destruct (checks mu).
  2: { eapply fin_PWrite; [exact E1|cbn [s_thr]; apply upd_eq]. }
  set (s1 := mkSys _ _) in *. assert (ET1 : s_thr s1 t = LChk (OPut k v) f w mu) by (cbn [s1 s_thr]; apply upd_eq).
  assert (NP1 : now (s_mem s1) (f_par f) (f_pv f)) by (eapply now_set_ver; eauto). clearbody s1.
  assert (RD1 : reads_ok (s_mem s1) (s_thr s1 t) newNode4) by (rewrite ET1; exact Logic.I).
  assert (ST1 : forall first nd, tstep first nd (s_mem s1) (s_thr s1 t) = SGo (s_mem s1) (PWrite (OPut k v) f w mu)).
  { intros. rewrite ET1. cbn [tstep]. now apply vcheck_now. }
  eapply fin_one; eauto. eapply fin_PWrite; [|cbn [s_thr]; apply upd_eq]. eapply exec_one; [exact E1|exact RD1|apply (ST1 true newNode4)].
Qed.
End Write.

(** ** Both *)
Theorem runs_alone h s t o : exec h s -> (forall n, lockbit s n = false) -> s_thr s t = PIdle -> valid_op o -> (forall k, o <> ODelete k) ->
  finishes t (mkSys (s_mem s) (upd_thr (s_thr s) t (PStart o))).
Proof.
  intros E QU ET VO ND. pose proof (exec_step _ _ _ _ E (step_call s t o ET VO)) as E0.
  destruct (GI_exec _ _ E0) as (r & A & S & G). pose proof (g_rep _ _ _ _ _ G) as K. pose proof (g_lk _ _ _ _ _ G) as LL. pose proof (LK_LI _ _ _ LL) as L. cbn [s_mem] in *.
  assert (Q : forall n c, cell_at (s_mem s) n = Some c -> locked (c_ver c) = false).
  { intros n c Hc. specialize (QU n). unfold lockbit, cell_of in QU. unfold cell_at in Hc. now rewrite Hc in QU. }
  destruct (max_wd (fun x => match A x with Some a => length (aW a) | None => 0 end) (mlen (s_mem s))) as (D & HD0).
  assert (HD : forall n a, A n = Some a -> length (aW a) <= D).
  { intros n a Ha. destruct (k_node _ _ _ K _ _ Ha) as (c & Hc & _). specialize (HD0 n (cell_lt _ _ _ Hc)). now rewrite Ha in HD0. }
  set (m := s_mem s) in *.
  assert (MAIN : forall x s1 h1, exec h1 s1 -> s_mem s1 = m -> TI m r A (S t) (s_thr s1 t) -> fresh m r A (s_thr s1 t) -> pc_op (s_thr s1 t) = Some o ->
     rank A D (s_thr s1 t) < x -> finishes t s1).
  { induction x as [|x IH]; intros s1 h1 E1 EM T F EO RK; [lia|].
    assert (C : (exists o f v mu, s_thr s1 t = LPar o f v mu) \/ (exists o f v mu, s_thr s1 t = LCur1 o f v mu) \/
       ((forall o f v mu, s_thr s1 t <> LPar o f v mu) /\ (forall o f v mu, s_thr s1 t <> LCur1 o f v mu))).
    { destruct (s_thr s1 t); eauto 10; right; right; split; discriminate. }
    assert (OPP : forall mu f, mu_fact o f mu newNode4 None -> False) by (intros mu f (a & X & _); discriminate).
    destruct C as [(o' & f & v & mu & ES)|[(o' & f & v & mu & ES)|(N1 & N2)]].
    - rewrite ES in T, F, EO. cbn in EO. injection EO as ->. destruct F as ((F1 & F2) & F3). pose proof T as (_ & _ & JJ).
      destruct (J_fact _ _ _ K _ _ _ _ (conj F1 F2) F3 JJ) as (c & a & _ & _ & _ & _ & (a' & _ & M)).
      destruct o as [k w|k|k]; [|contradiction|exfalso; eapply ND; reflexivity]. eapply fin_LPar; eauto; rewrite EM; auto.
    - rewrite ES in T, F, EO. cbn in EO. injection EO as ->. destruct F as ((F1 & F2) & F3). pose proof T as (_ & _ & JJ & _).
      destruct (J_fact _ _ _ K _ _ _ _ (conj F1 F2) F3 JJ) as (c & a & _ & _ & _ & _ & (a' & _ & M)).
      destruct o as [k w|k|k]; [|contradiction|exfalso; eapply ND; reflexivity]. eapply fin_LCur1; eauto; rewrite EM; auto.
    - pose proof (adv_all m r A K L (S t) Q (l_obs _ _ _ LL) D HD _ _ EO ND T F N1 N2) as AD.
      assert (NXT : forall first nd, reads_ok m (s_thr s1 t) nd -> exists p', tstep first nd m (s_thr s1 t) = SGo m p' /\
         finishes t (mkSys m (upd_thr (s_thr s1) t p'))).
      { intros first nd RD. destruct (AD first nd RD) as (p' & ST & _ & [(o' & y & ->)|(F' & RK')]); eexists; (split; [exact ST|]).
        - eapply fin_ret. cbn [s_thr]. apply upd_eq.
        - destruct (adv_TI m r A K L (S t) _ p' o first nd T EO) as (T' & EO'); auto.
          { intros y VY. apply (g_seen _ _ _ _ _ G t o y); auto. cbn [s_thr]. now rewrite upd_eq. }
          eapply (IH _ (h1 ++ [ETau t])); cbn [s_mem s_thr]; rewrite ?upd_eq; auto; [|lia].
          subst m. rewrite <- EM. eapply exec_one; eauto; rewrite EM; eauto. }
      destruct (reads_any m r A _ F) as (nd0 & RD0). apply fin_step.
      + destruct (NXT true nd0 RD0) as (p' & ST & _). eexists. eapply step_tau; rewrite EM; eauto.
      + intros s' SS. inversion SS as [| |t0 first nd1 m2 p2 RD1 SS1]; subst. rewrite EM in *. destruct (NXT first nd1 RD1) as (p' & ST & FN).
        rewrite ST in SS1. injection SS1 as <- <-. exact FN. }
  eapply (MAIN _ _ _ E0); cbn [s_mem s_thr]; rewrite ?upd_eq; try reflexivity; auto.
Qed.
