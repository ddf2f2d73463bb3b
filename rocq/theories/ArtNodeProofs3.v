(** * ArtNodeProofs3: shrinking, first child, empty nodes and prefix buffers. *)
From Verif Require Import Base BitsModel BitsFacts VecModel VecProofs VecProofs2 ArtNode ArtNodeProofs ArtNodeProofs2.
Ltac Zify.zify_post_hook ::= Z.div_mod_to_equations.

Lemma cnt_S f n : cnt f (S n) = cnt f n + (if f n then 1 else 0).
Proof. reflexivity. Qed.

(** Arrays [ks]/[cs] hold, in their first [j] entries, distinct bytes with their children. *)
Record packed (f : nat -> option ptr) (P : nat -> Prop) (j : nat) (ks : bytes) (cs : list (option ptr)) : Prop := {
  pk_in : forall q, q < j -> P (nth q ks 0) /\ nth q ks 0 < 256 /\
     nth q cs None = f (nth q ks 0) /\ f (nth q ks 0) <> None;
  pk_inj : forall q q', q < j -> q' < j -> nth q ks 0 = nth q' ks 0 -> q = q';
  pk_all : forall b, P b -> f b <> None -> exists q, q < j /\ nth q ks 0 = b
}.

Lemma packed_add f P P' j ks cs b : packed f P j ks cs -> b < 256 -> f b <> None -> ~ P b ->
  (forall x, P' x <-> P x \/ x = b) -> j < length ks -> j < length cs ->
  packed f P' (j + 1) (set_nth ks j b) (set_nth cs j (f b)).
Proof.
  intros PK Hb Hf HnP HP' Hk Hc.
  assert (EK : forall q, q < j + 1 -> nth q (set_nth ks j b) 0 = if Nat.eqb q j then b else nth q ks 0).
  { intros q Hq. rewrite nth_set_nth, (Nat.eqb_sym j q). destruct (Nat.eqb q j); cbn [andb]; auto.
    rewrite (proj2 (Nat.ltb_lt _ _)); auto. }
  assert (EC : forall q, q < j + 1 -> nth q (set_nth cs j (f b)) None = if Nat.eqb q j then f b else nth q cs None).
  { intros q Hq. rewrite nth_set_nth, (Nat.eqb_sym j q). destruct (Nat.eqb q j); cbn [andb]; auto.
    rewrite (proj2 (Nat.ltb_lt _ _)); auto. }
  constructor.
  - intros q Hq. rewrite EK, EC by auto. destruct (Nat.eqb_spec q j).
    + split; [apply HP'; auto|]. auto.
    + destruct (pk_in _ _ _ _ _ PK q) as (?&?&?&?); [lia|]. split; [apply HP'; auto|]. auto.
  - intros q q' Hq Hq'. rewrite !EK by auto. destruct (Nat.eqb_spec q j), (Nat.eqb_spec q' j); intros E; try lia.
    + exfalso. apply HnP. rewrite E. apply (pk_in _ _ _ _ _ PK). lia.
    + exfalso. apply HnP. rewrite <- E. apply (pk_in _ _ _ _ _ PK). lia.
    + apply (pk_inj _ _ _ _ _ PK); auto; lia.
  - intros x Hx Hfx. apply HP' in Hx as [Hx| ->].
    + destruct (pk_all _ _ _ _ _ PK x Hx Hfx) as (q & Hq & E). exists q. split; [lia|].
      rewrite EK by lia. destruct (Nat.eqb_spec q j); [lia|auto].
    + exists j. split; [lia|]. rewrite EK, Nat.eqb_refl by lia. reflexivity.
Qed.

(** A small node whose arrays are packed for all bytes but [key]. *)
Lemma packed_small n key m j :
  small (n_type m) = true -> length (n_keys m) = cap (n_type m) -> length (n_children m) = cap (n_type m) ->
  j <= cap (n_type m) -> n_num m = j ->
  packed (V n) (fun b => b <> key) j (n_keys m) (n_children m) ->
  small_ok m /\ (forall b', V m b' = if Nat.eqb b' key then None else V n b').
Proof.
  intros T HK HC Hj HN PK.
  assert (S : small_ok m).
  { constructor; auto; try rewrite HN.
    - exact Hj.
    - intros i Hi. apply (pk_in _ _ _ _ _ PK); auto.
    - apply (pk_inj _ _ _ _ _ PK).
    - intros i Hi. destruct (pk_in _ _ _ _ _ PK i Hi) as (_&_&->&?). auto. }
  split; [exact S|]. intros b'. apply option_ext. intros p. rewrite V_small by auto. rewrite HN.
  destruct (Nat.eqb_spec b' key) as [->|Hne].
  - split; [|discriminate]. intros (i & Hi & Hk & _). destruct (pk_in _ _ _ _ _ PK i Hi) as (?&_). congruence.
  - split.
    + intros (i & Hi & Hk & Hc). destruct (pk_in _ _ _ _ _ PK i Hi) as (_&_&E&_). congruence.
    + intros E. destruct (pk_all _ _ _ _ _ PK b' Hne) as (q & Hq & Hk); [congruence|].
      exists q. split; [auto|]. split; [auto|]. destruct (pk_in _ _ _ _ _ PK q Hq) as (_&_&Ec&_). congruence.
Qed.

(** node16 -> node4 *)
Lemma shrink16_loop_spec n key : small_ok n -> n_num n = 4 ->
  forall f i j ks cs, i + f = 4 -> j <= i -> length ks = 4 -> length cs = 4 ->
  (forall q, i <= q -> q < 4 -> nth q (n_keys n) 0 = key -> True) ->
  packed (V n) (fun b => b <> key /\ exists p, p < i /\ nth p (n_keys n) 0 = b) j ks cs ->
  (j + (if existsb (fun p => Nat.eqb (nth p (n_keys n) 0) key) (seq 0 i) then 1 else 0) = i) ->
  exists ks' cs' j', shrink16_loop n key f i j ks cs = Ok (ks', cs') /\ length ks' = 4 /\ length cs' = 4 /\
    packed (V n) (fun b => b <> key /\ exists p, p < 4 /\ nth p (n_keys n) 0 = b) j' ks' cs' /\
    (j' + (if existsb (fun p => Nat.eqb (nth p (n_keys n) 0) key) (seq 0 4) then 1 else 0) = 4).
Proof.
  intros S HN. pose proof (so_klen n S) as HK. pose proof (so_clen n S) as HC.
  pose proof (so_num n S) as Hnum.
  induction f as [|f IH]; intros i j ks cs Hf Hj Hks Hcs _ PK HJ; cbn [shrink16_loop].
  - assert (i = 4) by lia. subst i. exists ks, cs, j. auto.
  - rewrite (@idx_in byte _ i 0) by lia. cbn [bind].
    assert (Hi : i < n_num n) by lia.
    assert (ES : existsb (fun p => Nat.eqb (nth p (n_keys n) 0) key) (seq 0 (i + 1)) =
       existsb (fun p => Nat.eqb (nth p (n_keys n) 0) key) (seq 0 i) || Nat.eqb (nth i (n_keys n) 0) key).
    { rewrite Nat.add_1_r, seq_S, existsb_app. cbn [existsb Nat.add]. now rewrite orb_false_r. }
    destruct (Nat.eqb_spec (nth i (n_keys n) 0) key) as [E|E].
    + apply IH; auto; try lia.
      * destruct PK as [P1 P2 P3]. constructor; auto.
        -- intros q Hq. destruct (P1 q Hq) as ((?&p&?&?)&?&?&?). split; [|auto]. split; [auto|]. exists p. split; [lia|auto].
        -- intros b (Hb & p & Hp & Hk) Hv. apply P3; auto. split; auto. exists p. split; auto.
           assert (p <> i) by congruence. lia.
      * rewrite ES, orb_true_r. 
        destruct (existsb _ (seq 0 i)) eqn:EX; [|lia]. exfalso.
        apply existsb_exists in EX as (p & Hp & Ep). apply in_seq in Hp. apply Nat.eqb_eq in Ep.
        assert (p = i) by (apply (so_inj n S); try lia; congruence). lia.
    + rewrite (idx_in _ i None) by lia. cbn [bind].
      assert (HV : V n (nth i (n_keys n) 0) = nth i (n_children n) None).
      { destruct (nth i (n_children n) None) as [p|] eqn:Ec; [|now apply (so_some n S) in Hi].
        apply V_small; eauto. }
      unfold upd. rewrite Hks, Hcs, (proj2 (Nat.ltb_lt j 4)) by lia. cbn [bind].
      apply IH; auto; try lia.
      * now rewrite set_nth_length.
      * now rewrite set_nth_length.
      * rewrite <- HV. eapply packed_add; [exact PK| | | | |blia|lia].
        -- apply (so_byte n S). auto.
        -- rewrite HV. apply (so_some n S). auto.
        -- intros (_ & p & Hp & Ek). assert (p = i) by (apply (so_inj n S); auto; lia). lia.
        -- intros x. split.
           ++ intros (Hx & p & Hp & Ek). destruct (Nat.eq_dec p i) as [->|]; [right; auto|].
              left. split; auto. exists p. split; [lia|auto].
           ++ intros [(Hx & p & Hp & Ek)| ->].
              ** split; auto. exists p. split; [lia|auto].
              ** split; auto. exists i. split; [lia|auto].
      * rewrite ES, orb_false_r. lia.
Qed.

Lemma shrink16_spec n key : layout_ok n -> n_type n = Node16 -> nchild n = 4 -> V n key <> None ->
  exists n', shrink16 n key = Ok n' /\ layout_ok n' /\ n_type n' = Node4 /\ hdr n' = hdr n /\
    (forall b', V n' b' = if Nat.eqb b' key then None else V n b').
Proof.
  intros (Hn & Hc & L) Et NC HV. rewrite Et in L.
  assert (HN : n_num n = 4) by (rewrite Hn, NC; reflexivity).
  unfold shrink16. rewrite HN.
  destruct (shrink16_loop_spec n key L HN 4 0 0 (n_keys newNode4) (n_children newNode4)) as (ks & cs & j & E & Hk & Hcs & PK & HJ); auto.
  { constructor; try (intros; lia). intros b (_ & p & Hp & _). lia. }
  rewrite E. cbn [bind]. eexists. split; [reflexivity|]. set (m := set_num _ _).
  destruct (V n key) as [p|] eqn:EV; [|congruence]. apply V_small in EV as (i & Hi & Hki & Hci); auto.
  assert (J3 : j = 3).
  { destruct (existsb _ _) eqn:EX; [lia|]. exfalso.
    assert (X : existsb (fun p => Nat.eqb (nth p (n_keys n) 0) key) (seq 0 4) = true).
    { apply existsb_exists. exists i. split; [apply in_seq; lia|now apply Nat.eqb_eq]. }
    congruence. }
  destruct (packed_small n key m 3) as (S & HV'); auto.
  - cbn. lia.
  - subst j. destruct PK as [P1 P2 P3]. constructor; auto.
    + intros q Hq. destruct (P1 q Hq) as ((?&_)&?&?&?). auto.
    + intros b Hb Hv. apply P3; auto. split; auto. destruct (V n b) as [p'|] eqn:EV; [|congruence].
      apply V_small in EV as (i' & Hi' & Hk' & _); auto. exists i'. split; [lia|auto].
  - split; [now apply small_layout|]. auto.
Qed.

(** node48 -> node16 *)
Definition others (n : node) (key : nat) (b : nat) : bool := negb (Nat.eqb b key) && isSome (V n b).

Lemma others_count n key : V n key <> None -> key < 256 -> nchild n = S (cnt (others n key) 256).
Proof.
  intros HV Hk. unfold nchild. apply (cnt_set _ _ key); auto.
  - unfold others. now rewrite Nat.eqb_refl.
  - destruct (V n key); auto; congruence.
  - intros i _ Hne. unfold others. destruct (Nat.eqb_spec i key); [congruence|reflexivity].
Qed.

Lemma shrink48_loop_spec n key : ok48 n -> cnt (others n key) 256 = 12 ->
  forall f i j ks cs, i + f = 256 -> j = cnt (others n key) i -> length ks = 16 -> length cs = 16 ->
  packed (V n) (fun b => b <> key /\ b < i) j ks cs ->
  exists ks' cs', shrink48_loop n key f i j ks cs = Ok (ks', cs') /\ length ks' = 16 /\ length cs' = 16 /\
    packed (V n) (fun b => b <> key /\ b < 256) 12 ks' cs'.
Proof.
  intros O HT. induction f as [|f IH]; intros i j ks cs Hf Hj Hks Hcs PK; cbn [shrink48_loop].
  - assert (i = 256) by lia. subst i. exists ks, cs. rewrite HT in Hj. subst j. auto.
  - rewrite (idx_in _ i 0) by (rewrite (o48_ilen n O); lia). cbn [bind].
    assert (HVi : V n i = match nth i (n_index n) 0 with O => None | S p => nth p (n_children n) None end)
      by (unfold V; now rewrite (o48_type n O)).
    assert (HO : others n key i = negb (Nat.eqb i key) && negb (Nat.eqb (nth i (n_index n) 0) 0)).
    { unfold others. f_equal. rewrite HVi. destruct (nth i (n_index n) 0) as [|p] eqn:E; [reflexivity|].
      destruct (o48_used n O i p E) as (_ & Hnn & _). destruct (nth p (n_children n) None); [reflexivity|congruence]. }
    rewrite <- HO. destruct (others n key i) eqn:EO.
    + assert (Hne : i <> key) by (intros ->; unfold others in EO; rewrite Nat.eqb_refl in EO; discriminate).
      destruct (nth i (n_index n) 0) as [|p] eqn:E; [rewrite andb_false_r in HO; discriminate|].
      replace (S p - 1) with p by lia.
      destruct (o48_used n O i p E) as (Hp & Hnn & _).
      rewrite (idx_in _ p None) by (rewrite (o48_clen n O); auto). cbn [bind].
      assert (Hj12 : j < 12).
      { rewrite Hj, <- HT. assert (X : cnt (others n key) (S i) <= cnt (others n key) 256) by (apply cnt_mono; lia).
        rewrite cnt_S, EO in X. lia. }
      unfold upd. rewrite Hks, Hcs, (proj2 (Nat.ltb_lt j 16)) by lia. cbn [bind].
      apply IH; try lia.
      * rewrite Nat.add_1_r with (n := i). rewrite cnt_S, EO. lia.
      * now rewrite set_nth_length.
      * now rewrite set_nth_length.
      * rewrite <- HVi. eapply packed_add; [exact PK|lia| | | |blia|lia].
        -- rewrite HVi. auto.
        -- intros (_ & X); lia.
        -- intros x. cbn beta. lia.
    + apply IH; auto; try lia.
      * rewrite Nat.add_1_r, cnt_S, EO. lia.
      * destruct PK as [P1 P2 P3]. constructor; auto.
        -- intros q Hq. destruct (P1 q Hq) as ((?&?)&?&?&?). split; [|auto]. lia.
        -- intros b (Hb & Hb2) Hv. apply P3; auto. split; auto.
           destruct (Nat.eq_dec b i) as [->|]; [|lia]. exfalso. unfold others in EO.
           destruct (Nat.eqb_spec i key); [congruence|]. destruct (V n i); [discriminate|congruence].
Qed.

Lemma shrink48_spec n key : layout_ok n -> n_type n = Node48 -> nchild n = 13 -> V n key <> None ->
  exists n', shrink48 n key = Ok n' /\ layout_ok n' /\ n_type n' = Node16 /\ hdr n' = hdr n /\
    (forall b', V n' b' = if Nat.eqb b' key then None else V n b').
Proof.
  intros LO Et NC HV.
  assert (Hk256 : key < 256).
  { destruct (Nat.lt_ge_cases key 256); auto. exfalso. apply HV. now apply V_byte. }
  pose proof LO as (Hn & Hc & L). rewrite Et in L.
  pose proof (others_count n key HV Hk256) as HO. assert (HO2 : cnt (others n key) 256 = 12) by lia. clear HO.
  unfold shrink48.
  destruct (shrink48_loop_spec n key L HO2 256 0 0 (n_keys newNode16) (n_children newNode16)) as (ks & cs & E & Hks & Hcs & PK); auto.
  { constructor; try (intros; lia). }
  rewrite E. cbn [bind]. eexists. split; [reflexivity|]. set (m := set_num _ _).
  destruct (packed_small n key m 12) as (S & HV'); auto.
  - cbn. lia.
  - destruct PK as [P1 P2 P3]. constructor; auto.
    + intros q Hq. destruct (P1 q Hq) as ((?&?)&?&?&?). auto.
    + intros b Hb Hv. apply P3; auto. split; auto.
      destruct (Nat.lt_ge_cases b 256); auto. exfalso. apply Hv. now apply V_byte.
  - split; [now apply small_layout|]. auto.
Qed.

(** Empty nodes *)
Lemma nth_repeat_any {A} (x : A) n i : nth i (repeat x n) x = x.
Proof.
  destruct (Nat.lt_ge_cases i n); [apply nth_repeat|]. apply nth_overflow. now rewrite repeat_length.
Qed.

Lemma V_newNode4 b : V newNode4 b = None.
Proof. reflexivity. Qed.

Lemma newNode4_ok : layout_ok newNode4.
Proof. apply small_layout. constructor; cbn; auto; intros; lia. Qed.

Lemma V_newNode48 b : V newNode48 b = None.
Proof.
  unfold V. cbn [newNode48 n_type n_index]. unfold zeros. now rewrite nth_repeat_any.
Qed.

Lemma newNode48_ok : ok48 newNode48.
Proof.
  assert (HI : forall b, nth b (n_index newNode48) 0 = 0)
    by (intros; cbn [newNode48 n_index]; unfold zeros; apply nth_repeat_any).
  constructor; try reflexivity.
  - intros b p. rewrite HI. discriminate.
  - intros b b' p. rewrite HI. discriminate.
  - intros i H1 H2. change (n_slots newNode48) with node48EmptySlots. rewrite tb_empty_slots by auto. now apply Nat.leb_le.
Qed.

(** node256 -> node48 *)
Lemma shrink256_loop_spec n key : length (n_children n) = 256 -> n_type n = Node256 ->
  cnt (others n key) 256 < 48 ->
  forall f i nn, i + f = 256 -> ok48 nn ->
  (forall b, V nn b = if negb (Nat.eqb b key) && Nat.ltb b i then V n b else None) ->
  exists n', shrink256_loop n key f i nn = Ok n' /\ ok48 n' /\
    (forall b, V n' b = if negb (Nat.eqb b key) then V n b else None).
Proof.
  intros HL Et HT. induction f as [|f IH]; intros i nn Hf O HV; cbn [shrink256_loop].
  - exists nn. split; [auto|]. split; [auto|]. intros b. rewrite HV.
    destruct (Nat.eqb b key); cbn [negb andb]; auto.
    destruct (Nat.ltb_spec b i); auto. unfold V. rewrite Et. rewrite nth_overflow by lia. reflexivity.
  - rewrite (idx_in _ i None) by lia. cbn [bind].
    assert (HVi : V n i = nth i (n_children n) None) by (unfold V; now rewrite Et).
    destruct (nth i (n_children n) None) as [p|] eqn:E.
    + destruct (Nat.eqb_spec i key) as [Ek|Hne]; cbn [negb].
      * apply IH; auto; [lia|]. intros b. rewrite HV. destruct (Nat.eqb_spec b key); cbn [negb andb]; auto.
        destruct (Nat.ltb_spec b i), (Nat.ltb_spec b (i + 1)); auto; lia.
      * assert (HVn : V nn i = None).
        { rewrite HV. rewrite Nat.ltb_irrefl, andb_false_r. reflexivity. }
        assert (HC : nchild nn < 48).
        { eapply Nat.le_lt_trans; [|exact HT]. unfold nchild. apply cnt_le_pointwise.
          intros b _. rewrite HV. unfold others. destruct (Nat.eqb b key), (Nat.ltb b i); cbn; auto; discriminate. }
        destruct (alloc48_spec nn i p O HC ltac:(lia) HVn) as (n1 & q & Ea & Hq & E1 & E2 & _ & _ & O' & HV').
        rewrite Ea, E1, E2. unfold upd. rewrite (o48_ilen nn O), (o48_clen nn O).
        rewrite (proj2 (Nat.ltb_lt i 256)), (proj2 (Nat.ltb_lt q 48)) by lia. cbn [bind].
        apply IH; [lia|exact O'|]. intros b. rewrite HV', HV.
        destruct (Nat.eqb_spec b i) as [->|].
        -- destruct (Nat.eqb_spec i key); [congruence|]. rewrite (proj2 (Nat.ltb_lt i (i + 1))) by lia.
           cbn [negb andb]. congruence.
        -- destruct (Nat.eqb b key); cbn [negb andb]; auto.
           destruct (Nat.ltb_spec b i), (Nat.ltb_spec b (i + 1)); auto; lia.
    + apply IH; auto; [lia|]. intros b. rewrite HV. destruct (Nat.eqb b key); cbn [negb andb]; auto.
      destruct (Nat.ltb_spec b i), (Nat.ltb_spec b (i + 1)); auto; [lia|].
      assert (b = i) by lia. subst b. congruence.
Qed.

Lemma shrink256_spec n key : layout_ok n -> n_type n = Node256 -> nchild n = 38 -> V n key <> None ->
  exists n', shrink256 n key = Ok n' /\ layout_ok n' /\ n_type n' = Node48 /\ hdr n' = hdr n /\
    (forall b', V n' b' = if Nat.eqb b' key then None else V n b').
Proof.
  intros LO Et NC HV.
  assert (Hk256 : key < 256).
  { destruct (Nat.lt_ge_cases key 256); auto. exfalso. apply HV. now apply V_byte. }
  pose proof LO as (Hn & Hc & L). rewrite Et in L.
  pose proof (others_count n key HV Hk256) as HO. assert (HO2 : cnt (others n key) 256 < 48) by lia. clear HO.
  unfold shrink256.
  destruct (shrink256_loop_spec n key L Et HO2 256 0 newNode48) as (m & E & O & HV'); auto.
  { apply newNode48_ok. }
  { intros b. rewrite V_newNode48. rewrite andb_false_r. reflexivity. }
  rewrite E. cbn [bind]. eexists. split; [reflexivity|]. set (m' := set_num _ _).
  assert (VE : forall b, V m' b = V m b).
  { intros b. unfold V. change (n_type m') with (n_type m). rewrite (o48_type m O). reflexivity. }
  assert (HV2 : forall b', V m' b' = if Nat.eqb b' key then None else V n b').
  { intros b'. rewrite VE, HV'. now destruct (Nat.eqb b' key). }
  pose proof (nchild_del n m' key Hk256 HV HV2) as ND. assert (ND2 : nchild m' = 37) by lia. clear ND.
  assert (OK : ok48 m').
  { pose proof (o48_cnt m O) as CN. destruct O as [a1 a2 a3 a4 a5 a6 a7 a8]. constructor; auto. rewrite ND2.
    change (n_slots m') with (n_slots m). rewrite CN, <- ND2. unfold nchild.
    apply cnt_ext. intros; now rewrite VE. }
  assert (T : n_type m' = Node48) by exact (o48_type m O).
  split; [|split; [exact T|split; [reflexivity|exact HV2]]].
  split; [|split].
  - rewrite ND2. reflexivity.
  - rewrite ND2, T. cbn. lia.
  - rewrite T. exact OK.
Qed.

(** ** firstChild *)
Lemma first48_loop_spec n : ok48 n -> forall f i, i + f = 256 ->
  (exists b, i <= b /\ V n b <> None) ->
  exists b p, first48_loop n f i = Ok (Some p) /\ V n b = Some p.
Proof.
  intros O. induction f as [|f IH]; intros i Hf (b & Hb & HV).
  - exfalso. apply HV. unfold V. rewrite (o48_type n O), nth_overflow; auto. rewrite (o48_ilen n O). lia.
  - cbn [first48_loop]. rewrite (idx_in _ i 0) by (rewrite (o48_ilen n O); lia). cbn [bind].
    destruct (nth i (n_index n) 0) as [|p] eqn:E.
    + cbn [Nat.eqb]. apply IH; [lia|]. exists b. split; auto.
      destruct (Nat.eq_dec b i) as [->|]; [|lia]. exfalso. apply HV. unfold V. rewrite (o48_type n O), E. auto.
    + cbn [Nat.eqb]. replace (S p - 1) with p by lia. destruct (o48_used n O i p E) as (Hp & Hnn & _).
      rewrite (idx_in _ p None) by (rewrite (o48_clen n O); auto).
      destruct (nth p (n_children n) None) as [q|] eqn:Eq; [|congruence].
      exists i, q. split; auto. unfold V. rewrite (o48_type n O), E. auto.
Qed.

Lemma first256_loop_spec n : n_type n = Node256 -> length (n_children n) = 256 -> forall f i, i + f = 256 ->
  (exists b, i <= b /\ V n b <> None) ->
  exists b p, first256_loop n f i = Ok (Some p) /\ V n b = Some p.
Proof.
  intros Et HL. induction f as [|f IH]; intros i Hf (b & Hb & HV).
  - exfalso. apply HV. unfold V. rewrite Et, nth_overflow; auto. lia.
  - cbn [first256_loop]. rewrite (idx_in _ i None) by lia. cbn [bind].
    destruct (nth i (n_children n) None) as [q|] eqn:E.
    + exists i, q. split; auto. unfold V. now rewrite Et.
    + apply IH; [lia|]. exists b. split; auto. destruct (Nat.eq_dec b i) as [->|]; [|lia].
      exfalso. apply HV. unfold V. now rewrite Et.
Qed.

Lemma firstChild_spec n : layout_ok n -> 0 < nchild n ->
  exists b p, firstChild n = Ok (Some p) /\ V n b = Some p.
Proof.
  intros (Hn & Hc & L) Hpos.
  assert (HE : exists b, 0 <= b /\ V n b <> None).
  { apply cnt_exists in Hpos as (b & _ & Hb). exists b. split; [lia|]. destruct (V n b); [discriminate|discriminate]. }
  unfold firstChild. destruct (n_type n) eqn:Et; try contradiction.
  - rewrite (small_count n L) in Hpos.
    rewrite (idx_in _ 0 None) by (rewrite (so_clen n L), Et; cbn; lia).
    destruct (nth 0 (n_children n) None) as [p|] eqn:E; [|now apply (so_some n L) in Hpos].
    exists (nth 0 (n_keys n) 0), p. split; auto. apply V_small; eauto.
  - rewrite (small_count n L) in Hpos.
    rewrite (idx_in _ 0 None) by (rewrite (so_clen n L), Et; cbn; lia).
    destruct (nth 0 (n_children n) None) as [p|] eqn:E; [|now apply (so_some n L) in Hpos].
    exists (nth 0 (n_keys n) 0), p. split; auto. apply V_small; eauto.
  - apply first48_loop_spec; auto.
  - apply first256_loop_spec; auto.
Qed.

(** ** shouldShrink and removeChildAndShrink, in terms of the number of children *)
Definition min_size (t : ntype) : nat := match t with Node16 => 4 | Node48 => 13 | Node256 => 38 | _ => 0 end.
Definition shrunk (t : ntype) : ntype := match t with Node256 => Node48 | Node48 => Node16 | _ => Node4 end.

Lemma shouldShrink_big n pt : layout_ok n -> n_type n <> Node4 -> 0 < nchild n ->
  shouldShrink n pt = Ok (Nat.leb (nchild n) (min_size (n_type n))).
Proof.
  intros (Hn & Hc & L) Ht Hpos. unfold shouldShrink. destruct (n_type n) eqn:Et; try congruence; try contradiction; cbn [cap min_size] in *.
  - unfold node16MinSize. rewrite Hn, Nat.mod_small by lia. reflexivity.
  - unfold node48MinSize. rewrite Hn, Nat.mod_small by lia. reflexivity.
  - unfold node256MinSize. destruct (Nat.eq_dec (nchild n) 256) as [E|E].
    + rewrite Hn, E. reflexivity.
    + rewrite Hn, Nat.mod_small by lia. rewrite (proj2 (Nat.ltb_lt 0 (nchild n))) by lia. reflexivity.
Qed.
