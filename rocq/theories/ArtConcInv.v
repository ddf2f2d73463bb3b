(** * ArtConcInv: what each goroutine knows at each point, and why the steps of the other
    goroutines cannot make it false. *)
From Coq Require Import Permutation.
From Verif Require Import Base BitsModel BitsFacts VecModel VecProofs VecProofs2 ArtNode
  ArtNodeProofs ArtNodeProofs2 ArtNodeProofs3 ArtModel ArtSpec ArtTree ArtTree2 ArtRep ArtRep2
  ArtTree3 ArtSeq ArtMono ArtSeq2 ArtSeq3 ArtConc ArtConcHeap.
Ltac Zify.zify_post_hook ::= Z.div_mod_to_equations.

(** ** Version words *)
Lemma ver_bits v : locked v = N.testbit v 1 /\ obsolete v = N.testbit v 0.
Proof. split; reflexivity. Qed.
Lemma mod4_bits v : (v mod 4 = N.b2n (obsolete v) + 2 * N.b2n (locked v))%N.
Proof.
  unfold obsolete, locked. 
  pose proof (N.bit0_mod v) as H0. pose proof (N.testbit_spec' v 1) as H1. rewrite H0, H1. change (2 ^ 1)%N with 2%N. lia.
Qed.
Lemma unlocked_live v : (v mod 4 = 0 \/ v mod 4 = 1 \/ v mod 4 = 2)%N -> locked v = false -> obsolete v = false -> unl v.
Proof. intros _ H1 H2. unfold unl. pose proof (mod4_bits v) as E. rewrite H1, H2 in E. cbn in E. lia. Qed.
Lemma unl_locked v : unl v -> locked v = false /\ obsolete v = false.
Proof.
  unfold unl. intros H. pose proof (mod4_bits v) as E. rewrite H in E. destruct (locked v), (obsolete v); cbn in E; auto; lia.
Qed.
Lemma unl_add2 v : unl v -> ((v + 2) mod 4 = 2)%N.
Proof. unfold unl. intros. lia. Qed.

(** ** Version-word updates *)
Lemma set_ver_eq m a c v : cell_at m a = Some c -> set_ver m a v = upd_cell m a (mkCell v (c_node c)).
Proof. unfold set_ver, cell_at, upd_cell. now intros ->. Qed.
Lemma cell_set_ver m a c v n : cell_at m a = Some c ->
  cell_at (set_ver m a v) n = if Nat.eqb a n then Some (mkCell v (c_node c)) else cell_at m n.
Proof. intros H. rewrite (set_ver_eq _ _ _ _ H). apply cell_upd. eapply cell_lt; eauto. Qed.
Lemma mlen_set_ver m a c v : cell_at m a = Some c -> mlen (set_ver m a v) = mlen m.
Proof. intros H. rewrite (set_ver_eq _ _ _ _ H). apply mlen_upd. Qed.
Lemma crep_set_ver m r A a c v : crep m r A -> cell_at m a = Some c -> crep (set_ver m a v) r A.
Proof.
  intros K H. pose proof (cell_set_ver m a c v) as E. constructor.
  - rewrite (set_ver_eq _ _ _ _ H). exact (k_root _ _ _ K).
  - exact (k_inv _ _ _ K).
  - exact (k_zero _ _ _ K).
  - intros n c'. rewrite E by auto. destruct (Nat.eqb_spec a n) as [<-|]; [|apply (k_type _ _ _ K)].
    intros X; inversion X; subst. cbn. apply (k_type _ _ _ K _ _ H).
  - destruct (k_dummy _ _ _ K) as (d & Hd). rewrite E by auto. destruct (Nat.eqb a 0); eauto.
  - intros n x Hx. destruct (k_node _ _ _ K _ _ Hx) as (c' & Hc' & R). rewrite E by auto.
    destruct (Nat.eqb_spec a n) as [<-|]; [|eauto]. assert (c' = c) by congruence. subst. eexists. split; [reflexivity|]. exact R.
Qed.

(** ** Values of a key *)
Definition val (A : aheap) (k : bytes) (x : option bytes) : Prop :=
  match x with Some v => contents A k v | None => absent A k end.

Definition isput (o : op) : bool := match o with OPut _ _ => true | _ => false end.
Definition seen := option bytes -> Prop.
Definition sub (S S' : seen) : Prop := forall x, S x -> S' x.

(** ** Assertions about nodes *)
Definition fact := node -> option anode -> Prop.

Section Assert.
Context (m : mem) (r : nat) (A : aheap).

Definition has (n : nat) : Prop := exists c, cell_at m n = Some c.
Definition Past (n : nat) (v : N) : Prop := unl v /\ exists c, cell_at m n = Some c /\ (v <= c_ver c)%N.
Definition At (n : nat) (v : N) (P : fact) : Prop :=
  Past n v /\ forall c, cell_at m n = Some c -> c_ver c = v -> P (c_node c) (A n).
Definition Own (n : nat) (v : N) (P : fact) : Prop :=
  unl v /\ exists c, cell_at m n = Some c /\ c_ver c = (v + 2)%N /\ P (c_node c) (A n).
Definition Gone (n : nat) (v : N) : Prop := exists c, cell_at m n = Some c /\ (v < c_ver c)%N.
Definition RootC (n : nat) : Prop := A n <> None -> n = r.
Definition Wis (n : nat) (W : bytes) : Prop := forall a, A n = Some a -> aW a = W.
Definition Wbelow (n : nat) (W : bytes) : Prop := forall a, A n = Some a -> is_prefix W (aW a).

(** The goroutine has the current node under version [v]; a Put tolerates that the
    parent has changed since. *)
Definition J (o : op) (f : frame) (v : N) (P : fact) : Prop :=
  Past (f_cur f) v /\
  ((isput o = true /\ Gone (f_par f) (f_pv f)) \/
   (forall c, cell_at m (f_cur f) = Some c -> c_ver c = v -> P (c_node c) (A (f_cur f)))).
End Assert.

Section Facts.
Context (o : op) (S : seen).
(** The path is a prefix of the key, or (for Get and Delete) the key was absent at some
    moment since the call. *)
Definition kp (W : bytes) : Prop := is_prefix W (op_key o) \/ (isput o = false /\ S None).

Definition f_live : fact := fun _ oa => oa <> None.
Definition f_nz : fact := fun _ oa => exists a, oa = Some a /\ aW a <> [].
Definition f_link (f : frame) : fact := fun nd oa => f_par f <> 0 ->
  exists ap b slot pos, oa = Some ap /\ aCh ap b = Some (AN (f_cur f)) /\ f_loc f = LSlot (f_par f) slot /\
    slot_of nd b slot pos /\ f_depth f = Datatypes.S (length (aW ap)) /\
    nth_error (op_key o) (length (aW ap)) = Some b /\ kp (aW ap).
Definition f_base (f : frame) : fact := fun _ oa =>
  exists a, oa = Some a /\ f_depth f + aPL a = length (aW a) /\ kp (firstn (f_depth f) (aW a)).
Definition f_short (f : frame) : fact := fun nd oa =>
  f_base f nd oa /\ forall a, oa = Some a -> aPL a <= 8.
Definition f_long (f : frame) : fact := fun nd oa =>
  f_base f nd oa /\ forall a, oa = Some a -> 8 < aPL a.
Definition f_at (d : nat) : fact := fun _ oa => exists a, oa = Some a /\ length (aW a) = d /\ kp (aW a).
Definition f_none : fact := fun _ _ => S None.
Definition f_next (d : nat) (next : option ptr) (slot pos : nat) : fact := fun nd oa =>
  exists a, oa = Some a /\ length (aW a) = d /\ kp (aW a) /\
    (((exists k, o = OGet k) /\ d = length (op_key o) /\ next = option_map (fun v => PLeaf (newLeaf (aW a) v)) (aLeaf a)) \/
     (exists b, nth_error (op_key o) d = Some b /\ next = option_map conv (aCh a b) /\
        (aCh a b <> None -> slot_of nd b slot pos))).
Definition f_free (d : nat) : fact := fun _ oa =>
  exists a b, oa = Some a /\ length (aW a) = d /\ is_prefix (aW a) (op_key o) /\
    nth_error (op_key o) d = Some b /\ aCh a b = None.
Definition f_child (d : nat) (np : ptr) (slot : nat) : fact := fun nd oa =>
  exists a b p pos, oa = Some a /\ length (aW a) = d /\ is_prefix (aW a) (op_key o) /\
    nth_error (op_key o) d = Some b /\ aCh a b = Some p /\ np = conv p /\ slot_of nd b slot pos.
Definition f_mis (f : frame) (p : nat) (fk : bytes) : fact := fun nd oa =>
  exists a, oa = Some a /\ f_depth f + aPL a = length (aW a) /\ p <= aPL a /\
    is_prefix (firstn (f_depth f + p) (aW a)) (op_key o) /\
    (p < aPL a -> nth_error (op_key o) (f_depth f + p) <> nth_error (aW a) (f_depth f + p)) /\
    (8 < aPL a -> is_prefix (aW a) fk).
Definition f_all (f : frame) : fact := fun nd oa =>
  exists a, oa = Some a /\ f_depth f + aPL a = length (aW a) /\ is_prefix (aW a) (op_key o).
Definition f_pleaf (l : option leaf) : fact := fun nd oa =>
  exists a, oa = Some a /\ length (aW a) = length (op_key o) /\ kp (aW a) /\ l = option_map (newLeaf (aW a)) (aLeaf a).
Definition f_here : fact := fun _ oa => exists a, oa = Some a /\ aW a = op_key o /\ aLeaf a <> None.
Definition f_leaf (d pos : nat) : fact := fun nd oa =>
  exists a b v0 slot, oa = Some a /\ length (aW a) = d /\ nth_error (op_key o) d = Some b /\
    aCh a b = Some (AL (op_key o) v0) /\ slot_of nd b slot pos.
Definition f_holds (l : leaf) : fact := fun _ oa =>
  exists a k v, oa = Some a /\ l = newLeaf k v /\ holds a k v.
Definition f_some (next : option ptr) : fact := fun _ oa =>
  exists a, oa = Some a /\ forall q, next = Some q -> exists b p, aCh a b = Some p /\ q = conv p.
Definition f_cl (f : frame) (mu : mut) (i c : nat) : fact := fun nd oa =>
  mu_fact o f mu nd oa /\ child_lock nd mu (op_key o) = Ok (Some (i, c)).
End Facts.

Section TI.
Context (m : mem) (r : nat) (A : aheap) (S : seen).

Record FI (o : op) (f : frame) : Prop := {
  fi_valid : valid_op o;
  fi_cur : f_cur f <> 0;
  fi_has : has m (f_cur f);
  fi_depth : f_depth f <= length (op_key o);
  fi_root : f_par f = 0 -> f_loc f = LRoot /\ f_depth f = 0 /\ RootC r A (f_cur f);
  fi_inner : f_par f <> 0 -> f_cur f <> r;
  fi_link : At m A (f_par f) (f_pv f) (f_link o S f)
}.

Definition chain (f : frame) (x : nat) : Prop := exists W, Wis A (f_cur f) W /\ Wbelow A x W.
Definition deep (x : nat) : Prop := exists b W, Wbelow A x (b :: W).
Definition fkey (f : frame) (fk : bytes) : Prop := exists W, Wis A (f_cur f) W /\ is_prefix W fk.

Definition TI (p : pc) : Prop :=
  match p with
  | PIdle => True
  | PCrash o => isput o = true
  | PRet o x => True
  | PStart o => valid_op o
  | PRoot o r0 => valid_op o /\ r0 <> 0 /\ has m r0 /\ RootC r A r0
  | PDum o pv => valid_op o /\ Past m 0 pv
  | PLock o f => FI o f
  | PPar o f v => FI o f /\ isput o = false /\ At m A (f_cur f) v f_live
  | PRead0 o f v | PRead1 o f v => FI o f /\ isput o = false /\ J m A o f v (f_base o S f)
  | PRead2 o f v d => FI o f /\ isput o = false /\ d <= length (op_key o) /\ J m A o f v (f_at o S d)
  | PMiss o f v => FI o f /\ isput o = false /\ J m A o f v (f_none S)
  | PNext o f v d next slot pos => FI o f /\ d <= length (op_key o) /\ J m A o f v (f_next o S d next slot pos)
  | IMis o f v => FI o f /\ isput o = true /\ J m A o f v (f_base o S f)
  | IMis1 o f v => FI o f /\ isput o = true /\ J m A o f v (f_short o S f)
  | FChk o f v got | FPar o f v got => FI o f /\ isput o = true /\ J m A o f v (f_long o S f) /\
      match got with Some fk => fkey f fk | None => True end
  | FRd o f v x vx => FI o f /\ isput o = true /\ J m A o f v (f_long o S f) /\ At m A x vx f_nz /\ chain f x
  | FVal o f v x vx next => FI o f /\ isput o = true /\ J m A o f v (f_long o S f) /\ At m A x vx (f_some next) /\ chain f x
  | FLeaf o f v x vx l => FI o f /\ isput o = true /\ J m A o f v (f_long o S f) /\ At m A x vx (f_holds l) /\ chain f x
  | FNext o f v y => FI o f /\ isput o = true /\ J m A o f v (f_long o S f) /\ y <> 0 /\ has m y /\ chain f y /\ deep y
  | IMis2 o f v fk => FI o f /\ isput o = true /\ J m A o f v (f_long o S f) /\ fkey f fk
  | IPl o f v p fk => FI o f /\ isput o = true /\ J m A o f v (f_mis o f p fk)
  | IDep o f v => FI o f /\ isput o = true /\ J m A o f v (f_all o f)
  | IFind o f v d => FI o f /\ isput o = true /\ d <= length (op_key o) /\ J m A o f v (f_at o S d)
  | IFull o f v d => FI o f /\ isput o = true /\ J m A o f v (f_free o d)
  | IPar o f v d np slot => FI o f /\ isput o = true /\ J m A o f v (f_child o d np slot) /\
      (Gone m (f_par f) (f_pv f) \/ forall y, np = PNode y -> d < length (op_key o) /\ y <> 0 /\ has m y /\ y <> r)
  | DLeaf o f v l => FI o f /\ isput o = false /\ (exists k, o = ODelete k) /\ J m A o f v (f_pleaf o S l)
  | DCmp o f v => FI o f /\ isput o = false /\ (exists k, o = ODelete k) /\ J m A o f v (f_here o)
  | DBug o f v => FI o f /\ isput o = false /\ S None
  | DShr o f v d pos => FI o f /\ isput o = false /\ (exists k, o = ODelete k) /\ J m A o f v (f_leaf o d pos)
  | LPar o f v mu => FI o f /\ two mu = true /\ J m A o f v (mu_fact o f mu)
  | LCur2 o f v mu => FI o f /\ two mu = true /\ Own m A (f_par f) (f_pv f) (f_link o S f) /\
      At m A (f_cur f) v (mu_fact o f mu)
  | LCur1 o f v mu => FI o f /\ two mu = false /\ J m A o f v (mu_fact o f mu) /\
      (checks mu = false -> At m A (f_cur f) v (mu_fact o f mu))
  | LChk o f v mu => FI o f /\ two mu = false /\ Own m A (f_cur f) v (fun _ _ => True) /\
      (Gone m (f_par f) (f_pv f) \/ Own m A (f_cur f) v (mu_fact o f mu))
  | PWrite o f v mu => FI o f /\ Own m A (f_cur f) v (mu_fact o f mu) /\
      (two mu = true -> Own m A (f_par f) (f_pv f) (f_link o S f))
  | CWait o f v mu i c => FI o f /\ two mu = true /\ retires mu = true /\ has m c /\ Own m A (f_cur f) v (f_cl o f mu i c) /\
      Own m A (f_par f) (f_pv f) (f_link o S f)
  | CCas o f v mu i c vc => FI o f /\ two mu = true /\ retires mu = true /\ Past m c vc /\ Own m A (f_cur f) v (f_cl o f mu i c) /\
      Own m A (f_par f) (f_pv f) (f_link o S f)
  | CWrite o f v mu i c => FI o f /\ two mu = true /\ retires mu = true /\ has m c /\ Own m A (f_cur f) v (f_cl o f mu i c) /\
      Own m A (f_par f) (f_pv f) (f_link o S f)
  | PUnlock o us done => valid_op o /\ Forall (has m) (map fst us)
  end.
End TI.

(** ** Steps of other goroutines *)
Record env (H : list nat) (m : mem) (r : nat) (A : aheap) (m' : mem) (r' : nat) (A' : aheap) : Prop := {
  e_cell : forall n c, cell_at m n = Some c -> exists c', cell_at m' n = Some c' /\ (c_ver c <= c_ver c')%N /\
     (c_ver c' = c_ver c -> unl (c_ver c) \/ In n H -> c_node c' = c_node c /\ A' n = A n) /\
     (In n H -> c_ver c' = c_ver c);
  e_W : forall n a a', A n = Some a -> A' n = Some a' -> aW a' = aW a;
  e_dead : forall n, n < mlen m -> A n = None -> A' n = None;
  e_root : r' = r \/ (A' r = None /\ mlen m <= r')
}.

Lemma env_refl H m r A : env H m r A m r A.
Proof. constructor; auto; [|congruence]. intros n c Hc. exists c. split; auto. split; [lia|]. auto. Qed.

Section Stable.
Context (H : list nat) (m : mem) (r : nat) (A : aheap) (m' : mem) (r' : nat) (A' : aheap).
Context (E : env H m r A m' r' A').

Lemma has_st n : has m n -> has m' n.
Proof. intros (c & Hc). destruct (e_cell _ _ _ _ _ _ _ E n c Hc) as (c' & Hc' & _). exists c'. auto. Qed.
Lemma Past_st n v : Past m n v -> Past m' n v.
Proof.
  intros (U & c & Hc & L). destruct (e_cell _ _ _ _ _ _ _ E n c Hc) as (c' & Hc' & L' & _). split; auto. exists c'. split; auto. lia.
Qed.
Lemma Gone_st n v : Gone m n v -> Gone m' n v.
Proof. intros (c & Hc & L). destruct (e_cell _ _ _ _ _ _ _ E n c Hc) as (c' & Hc' & L' & _). exists c'. split; auto. lia. Qed.
Lemma cell_st n v c c' : unl v -> (v <= c_ver c)%N -> cell_at m n = Some c -> cell_at m' n = Some c' -> c_ver c' = v ->
  c_ver c = v /\ c_node c' = c_node c /\ A' n = A n.
Proof.
  intros U L Hc Hc' V. destruct (e_cell _ _ _ _ _ _ _ E n c Hc) as (c2 & Hc2 & L' & X & _).
  assert (c2 = c') by congruence. subst c2. assert (c_ver c = v) by lia. split; auto. apply X; [congruence|left; congruence].
Qed.
Lemma At_st n v P : At m A n v P -> At m' A' n v P.
Proof.
  intros (PA & Q). split; [now apply Past_st|]. intros c' Hc' V. destruct PA as (U & c & Hc & L).
  destruct (cell_st n v c c' U L Hc Hc' V) as (V2 & -> & ->). auto.
Qed.
Lemma Own_st n v P : In n H -> Own m A n v P -> Own m' A' n v P.
Proof.
  intros HI (U & c & Hc & V & Q). split; auto. destruct (e_cell _ _ _ _ _ _ _ E n c Hc) as (c' & Hc' & _ & X & Y).
  specialize (Y HI). destruct (X Y (or_intror HI)) as (E1 & E2). exists c'. split; auto. split; [congruence|]. now rewrite E1, E2.
Qed.
Lemma J_st o f v P : J m A o f v P -> J m' A' o f v P.
Proof.
  intros (PA & [(X & G)|Q]); split; try (now apply Past_st).
  - left. split; auto. now apply Gone_st.
  - right. exact (proj2 (At_st _ _ _ (conj PA Q))).
Qed.
Lemma RootC_st n : n < mlen m -> RootC r A n -> RootC r' A' n.
Proof.
  intros L X Y. destruct (A n) as [a|] eqn:Ea.
  - assert (n = r) by (apply X; congruence). subst n. destruct (e_root _ _ _ _ _ _ _ E) as [->|(G & _)]; auto. contradiction.
  - exfalso. apply Y. now apply (e_dead _ _ _ _ _ _ _ E).
Qed.
Lemma ne_st n : n < mlen m -> n <> r -> n <> r'.
Proof. intros L N. destruct (e_root _ _ _ _ _ _ _ E) as [->|(_ & G)]; auto. lia. Qed.
Lemma Wis_st n W : n < mlen m -> Wis A n W -> Wis A' n W.
Proof.
  intros L X a' Ha'. destruct (A n) as [a|] eqn:Ea.
  - rewrite (e_W _ _ _ _ _ _ _ E n a a' Ea Ha'). auto.
  - rewrite (e_dead _ _ _ _ _ _ _ E n L Ea) in Ha'. discriminate.
Qed.
Lemma Wbelow_st n W : n < mlen m -> Wbelow A n W -> Wbelow A' n W.
Proof.
  intros L X a' Ha'. destruct (A n) as [a|] eqn:Ea.
  - rewrite (e_W _ _ _ _ _ _ _ E n a a' Ea Ha'). auto.
  - rewrite (e_dead _ _ _ _ _ _ _ E n L Ea) in Ha'. discriminate.
Qed.
End Stable.

Lemma has_lt m n : has m n -> n < mlen m.
Proof. intros (c & Hc). eapply cell_lt; eauto. Qed.
Lemma At_has m A n v P : At m A n v P -> has m n.
Proof. intros ((_ & c & Hc & _) & _). now exists c. Qed.
Lemma Past_has m n v : Past m n v -> has m n.
Proof. intros (_ & c & Hc & _). now exists c. Qed.

(** Weakening *)
Definition imp (P Q : fact) : Prop := forall nd oa, P nd oa -> Q nd oa.
Lemma At_imp m A n v P Q : imp P Q -> At m A n v P -> At m A n v Q.
Proof. intros I (X & Y). split; [exact X|]. intros c Hc V. apply I. auto. Qed.
Lemma Own_imp m A n v P Q : imp P Q -> Own m A n v P -> Own m A n v Q.
Proof. intros I (X & c & Hc & V & Y). split; [exact X|]. exists c. auto. Qed.
Lemma J_imp m A o f v P Q : imp P Q -> J m A o f v P -> J m A o f v Q.
Proof. intros I (X & [Y|Y]); (split; [exact X|]); [left; exact Y|right]. intros c Hc V. apply I. auto. Qed.

Section Mono.
Context (o : op) (S S' : seen) (SS : sub S S').
Lemma kp_mono W : kp o S W -> kp o S' W.
Proof. intros [X|(X & Y)]; [left; auto|right; auto]. Qed.
Lemma link_mono f : imp (f_link o S f) (f_link o S' f).
Proof. intros nd oa X N. destruct (X N) as (ap & b & s & q & X1 & X2 & X3 & X4 & X5 & X6 & X7). exists ap, b, s, q. auto 10 using kp_mono. Qed.
Lemma base_mono f : imp (f_base o S f) (f_base o S' f).
Proof. intros nd oa (a & X1 & X2 & X3). exists a. auto using kp_mono. Qed.
Lemma short_mono f : imp (f_short o S f) (f_short o S' f).
Proof. intros nd oa (X & Y). split; auto. now apply base_mono. Qed.
Lemma long_mono f : imp (f_long o S f) (f_long o S' f).
Proof. intros nd oa (X & Y). split; auto. now apply base_mono. Qed.
Lemma at_mono d : imp (f_at o S d) (f_at o S' d).
Proof. intros nd oa (a & X1 & X2 & X3). exists a. auto using kp_mono. Qed.
Lemma none_mono : imp (f_none S) (f_none S').
Proof. intros nd oa X. apply SS. exact X. Qed.
Lemma next_mono d nx s p : imp (f_next o S d nx s p) (f_next o S' d nx s p).
Proof. intros nd oa (a & X1 & X2 & X3 & X4). exists a. auto using kp_mono. Qed.
Lemma pleaf_mono l : imp (f_pleaf o S l) (f_pleaf o S' l).
Proof. intros nd oa (a & X1 & X2 & X3 & X4). exists a. auto using kp_mono. Qed.
End Mono.

Lemma FI_st H m r A m' r' A' S S' o f : env H m r A m' r' A' -> sub S S' -> FI m r A S o f -> FI m' r' A' S' o f.
Proof.
  intros E SS [F1 F2 F3 F4 F5 F6 F7]. pose proof (has_lt _ _ F3) as L. constructor; auto.
  - eapply has_st; eauto.
  - intros X. destruct (F5 X) as (Y1 & Y2 & Y3). split; auto. split; auto. eapply RootC_st; eauto.
  - intros X. eapply ne_st; eauto.
  - eapply At_st; eauto. eapply At_imp; [|exact F7]. now apply link_mono.
Qed.

Lemma chain_st H m r A m' r' A' f x : env H m r A m' r' A' -> f_cur f < mlen m -> x < mlen m -> chain A f x -> chain A' f x.
Proof. intros E L1 L2 (W & X1 & X2). exists W. split; [eapply Wis_st; eauto|eapply Wbelow_st; eauto]. Qed.
Lemma fkey_st H m r A m' r' A' f x : env H m r A m' r' A' -> f_cur f < mlen m -> fkey A f x -> fkey A' f x.
Proof. intros E L1 (W & X1 & X2). exists W. split; auto. eapply Wis_st; eauto. Qed.

Lemma TI_st m r A m' r' A' S S' p : env (held p) m r A m' r' A' -> sub S S' -> TI m r A S p -> TI m' r' A' S' p.
Proof.
  intros E SS T.
  assert (FF : forall o f, FI m r A S o f -> FI m' r' A' S' o f) by (intros; eapply FI_st; eauto).
  assert (JJ : forall o f v P Q, imp P Q -> J m A o f v P -> J m' A' o f v Q).
  { intros o f v P Q PQ X. eapply J_imp; [exact PQ|]. eapply J_st; eauto. }
  assert (AA : forall n v P, At m A n v P -> At m' A' n v P) by (intros; eapply At_st; eauto).
  assert (LT : forall o f, FI m r A S o f -> f_cur f < mlen m) by (intros o f X; apply has_lt; apply X).
  assert (II : forall P : fact, imp P P) by (intros P nd oa X; exact X).
  destruct p; cbn [TI] in *; auto.
  - destruct T as (T1 & T2 & T3 & T4). split; auto. split; auto. split; [eapply has_st; eauto|]. eapply RootC_st; eauto using has_lt.
  - destruct T. split; auto. eapply Past_st; eauto.
  - destruct T as (T1 & T2 & T3). auto.
  - destruct T as (T1 & T2 & T3). split; auto. split; auto. eapply JJ; [|exact T3]. now apply base_mono.
  - destruct T as (T1 & T2 & T3). split; auto. split; auto. eapply JJ; [|exact T3]. now apply base_mono.
  - destruct T as (T1 & T2 & T3 & T4). split; auto. split; auto. split; auto. eapply JJ; [|exact T4]. now apply at_mono.
  - destruct T as (T1 & T2 & T3). split; auto. split; auto. eapply JJ; [|exact T3]. now apply none_mono.
  - destruct T as (T1 & T2 & T3). split; auto. split; auto. eapply JJ; [|exact T3]. now apply next_mono.
  - destruct T as (T1 & T2 & T3). split; auto. split; auto. eapply JJ; [|exact T3]. now apply base_mono.
  - destruct T as (T1 & T2 & T3). split; auto. split; auto. eapply JJ; [|exact T3]. now apply short_mono.
  - destruct T as (T1 & T2 & T3 & T4). split; auto. split; auto. split; [eapply JJ; [|exact T3]; now apply long_mono|].
    destruct got; auto. eapply fkey_st; eauto.
  - destruct T as (T1 & T2 & T3 & T4). split; auto. split; auto. split; [eapply JJ; [|exact T3]; now apply long_mono|].
    destruct got; auto. eapply fkey_st; eauto.
  - destruct T as (T1 & T2 & T3 & T4 & T5). split; auto. split; auto. split; [eapply JJ; [|exact T3]; now apply long_mono|].
    split; auto. eapply chain_st; eauto. apply has_lt. eapply At_has; eauto.
  - destruct T as (T1 & T2 & T3 & T4 & T5). split; auto. split; auto. split; [eapply JJ; [|exact T3]; now apply long_mono|].
    split; auto. eapply chain_st; eauto. apply has_lt. eapply At_has; eauto.
  - destruct T as (T1 & T2 & T3 & T4 & T5). split; auto. split; auto. split; [eapply JJ; [|exact T3]; now apply long_mono|].
    split; auto. eapply chain_st; eauto. apply has_lt. eapply At_has; eauto.
  - destruct T as (T1 & T2 & T3 & T4 & T5 & T6). split; auto. split; auto. split; [eapply JJ; [|exact T3]; now apply long_mono|].
    split; auto. split; [eapply has_st; eauto|]. destruct T6 as (T6 & b & W & T7). split; [eapply chain_st; eauto using has_lt|].
    exists b, W. eapply Wbelow_st; eauto using has_lt.
  - destruct T as (T1 & T2 & T3 & T4). split; auto. split; auto. split; [eapply JJ; [|exact T3]; now apply long_mono|].
    eapply fkey_st; eauto.
  - destruct T as (T1 & T2 & T3). split; auto. split; auto. eapply JJ; [|exact T3]. auto.
  - destruct T as (T1 & T2 & T3). split; auto. split; auto. eapply JJ; [|exact T3]. auto.
  - destruct T as (T1 & T2 & T3 & T4). split; auto. split; auto. split; auto. eapply JJ; [|exact T4]. now apply at_mono.
  - destruct T as (T1 & T2 & T3). split; auto. split; auto. eapply JJ; [|exact T3]. auto.
  - destruct T as (T1 & T2 & T3 & T4). split; auto. split; auto. split; [eapply JJ; [|exact T3]; auto|].
    destruct T4 as [T4|T4]; [left; eapply Gone_st; eauto|right]. intros y Ey. destruct (T4 y Ey) as (Y1 & Y2 & Y3 & Y4).
    split; auto. split; auto. split; [eapply has_st; eauto|eapply ne_st; eauto using has_lt].
  - destruct T as (T1 & T2 & T3 & T4). split; auto. split; auto. split; auto. eapply JJ; [|exact T4]. now apply pleaf_mono.
  - destruct T as (T1 & T2 & T3 & T4). split; auto. split; auto. split; auto. eapply JJ; [|exact T4]. auto.
  - destruct T as (T1 & T2 & T3). split; auto.
  - destruct T as (T1 & T2 & T3 & T4). split; auto. split; auto. split; auto. eapply JJ; [|exact T4]. auto.
  - destruct T as (T1 & T2 & T3). split; auto. split; auto. eapply JJ; [|exact T3]. auto.
  - destruct T as (T1 & T2 & T3 & T4). split; auto. split; auto. split; auto.
    eapply Own_imp; [eapply link_mono; eauto|]. eapply Own_st; eauto. left; auto.
  - destruct T as (T1 & T2 & T3 & T4). split; auto. split; auto. split; auto. eapply JJ; [|exact T3]. auto.
  - destruct T as (T1 & T2 & T3 & T4). split; auto. split; auto. cbn [held] in E.
    split; [eapply Own_st; eauto; left; auto|].
    destruct T4 as [T4|T4]; [left; eapply Gone_st; eauto|right; eapply Own_st; eauto; left; auto].
  - destruct T as (T1 & T2 & T3). split; auto. cbn [held] in E.
    split; [eapply Own_st; eauto; destruct (two mu); left; auto|].
    intros X. rewrite X in E. eapply Own_imp; [eapply link_mono; eauto|]. eapply Own_st; eauto. right; left; auto.
  - destruct T as (T1 & T2 & T3 & T4 & T5 & T6). split; auto. split; auto. split; auto. cbn [held] in E. split; [eapply has_st; eauto|].
    split; [eapply Own_st; eauto; left; auto|]. eapply Own_imp; [eapply link_mono; eauto|]. eapply Own_st; eauto. right; left; auto.
  - destruct T as (T1 & T2 & T3 & T4 & T5 & T6). split; auto. split; auto. split; auto. cbn [held] in E. split; [eapply Past_st; eauto|].
    split; [eapply Own_st; eauto; left; auto|]. eapply Own_imp; [eapply link_mono; eauto|]. eapply Own_st; eauto. right; left; auto.
  - destruct T as (T1 & T2 & T3 & T4 & T5 & T6). split; auto. split; auto. split; auto. cbn [held] in E. split; [eapply has_st; eauto|].
    split; [eapply Own_st; eauto; right; left; auto|]. eapply Own_imp; [eapply link_mono; eauto|]. eapply Own_st; eauto. right; right; left; auto.
  - destruct T as (T1 & T2). split; auto. eapply Forall_impl; [|exact T2]. intros x. eapply has_st; eauto.
Qed.
