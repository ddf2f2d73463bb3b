(** * Correctness of select64: broadword routine and BMI2 instruction sequence. *)
From Verif Require Import Base BitsModel BitsFacts.
Ltac Zify.zify_post_hook ::= Z.div_mod_to_equations.
Open Scope N_scope.

Lemma sweep (n : nat) (P : N -> bool) :
  forallb P (map N.of_nat (seq 0 n)) = true -> forall a, a < N.of_nat n -> P a = true.
Proof.
  intros H a Ha. rewrite forallb_forall in H. apply H.
  apply in_map_iff. exists (N.to_nat a). split; [apply N2Nat.id|]. apply in_seq. lia.
Qed.

(** Little-endian value of a list of byte lanes. *)
Definition wd (bs : list N) : N := fold_right (fun b acc => b + 256 * acc) 0 bs.

Lemma wd_cons a bs : wd (a :: bs) = a + 256 * wd bs.
Proof. reflexivity. Qed.

Lemma land_lane a b c d : a < 256 -> c < 256 ->
  N.land (a + 256 * b) (c + 256 * d) = N.land a c + 256 * N.land b d.
Proof. apply (land_split a b c d 8). Qed.
Lemma lor_lane a b c d : a < 256 -> c < 256 ->
  N.lor (a + 256 * b) (c + 256 * d) = N.lor a c + 256 * N.lor b d.
Proof. apply (lor_split a b c d 8). Qed.
Lemma pop_lane a b : a < 256 -> pop (a + 256 * b) = (pop a + pop b)%nat.
Proof. apply (pop_split a b 8). Qed.

Definition lanes (m : N) (bs : list N) : Prop := Forall (fun b => b < m) bs.

Lemma land_le a b : N.land a b <= a.
Proof.
  destruct (N.eq_dec (N.land a b) 0) as [->|Hn]; [lia|].
  apply N.ldiff_le. apply N.bits_inj. intros i.
  rewrite N.ldiff_spec, N.land_spec, N.bits_0. now destruct (N.testbit a i), (N.testbit b i).
Qed.

(** Step 1: x - ((x & 0xaa..) >> 1). *)
Definition f1 (b : N) := b - N.land b 0xaa / 2.
Lemma even_mask n w : N.land w (wd (repeat 0xaa n)) mod 2 = 0.
Proof.
  rewrite <- N.bit0_mod. rewrite N.land_spec.
  assert (N.testbit (wd (repeat 0xaa n)) 0 = false) as ->.
  { destruct n as [|n]; [reflexivity|]. cbn [repeat]. rewrite wd_cons.
    rewrite (testbit_add_pow2 0xaa _ 8) by reflexivity. reflexivity. }
  now rewrite andb_false_r.
Qed.
Lemma step1 bs : lanes 256 bs ->
  wd bs - N.land (wd bs) (wd (repeat 0xaa (length bs))) / 2 = wd (map f1 bs).
Proof.
  induction 1 as [|a bs Ha Hbs IH]; [reflexivity|].
  cbn [length repeat map]. rewrite !wd_cons, <- IH. rewrite land_lane by (auto; reflexivity).
  pose proof (even_mask (length bs) (wd bs)) as He.
  pose proof (land_le (wd bs) (wd (repeat 0xaa (length bs)))) as Hle.
  pose proof (land_le a 0xaa) as Hle2.
  unfold f1. set (W := wd bs) in *. set (L := N.land W _) in *. set (A := N.land a 0xaa) in *.
  assert ((A + 256 * L) / 2 = A / 2 + 256 * (L / 2)) as -> by lia. lia.
Qed.
Lemma f1_lane a : a < 256 -> f1 a < 171.
Proof.
  intros H. apply N.ltb_lt. apply (sweep 256 (fun a => f1 a <? 171)); [vm_compute; reflexivity|exact H].
Qed.

(** Step 2: (s & 0x33..) + ((s >> 2) & 0x33..). *)
Definition f2 (b : N) := N.land b 0x33 + N.land (b / 4) 0x33.
Lemma sweep2 a r : a < 256 -> r < 4 -> N.land (a / 4 + 64 * r) 0x33 = N.land (a / 4) 0x33.
Proof.
  intros Ha Hr. apply N.eqb_eq.
  apply (sweep 256 (fun a => N.land (a / 4 + 64 * r) 0x33 =? N.land (a / 4) 0x33)); [|exact Ha].
  revert Hr. apply (sweep 4 (fun r => forallb (fun a => N.land (a / 4 + 64 * r) 0x33 =? N.land (a / 4) 0x33)
    (map N.of_nat (seq 0 256)))). vm_compute. reflexivity.
Qed.
Lemma step2 bs : lanes 256 bs ->
  N.land (wd bs) (wd (repeat 0x33 (length bs))) +
  N.land (wd bs / 4) (wd (repeat 0x33 (length bs))) = wd (map f2 bs).
Proof.
  induction 1 as [|a bs Ha Hbs IH]; [reflexivity|].
  cbn [length repeat map]. rewrite !wd_cons, <- IH.
  set (W := wd bs) in *. set (M := wd _) in *.
  assert ((a + 256 * W) / 4 = (a / 4 + 64 * (W mod 4)) + 256 * (W / 4)) as -> by lia.
  rewrite !land_lane by (try reflexivity; lia). rewrite sweep2 by lia. unfold f2. lia.
Qed.
Definition nib_ok (b : N) := (b mod 16 <=? 4) && (b / 16 <=? 4).
Lemma f21_lane a : a < 256 -> f2 (f1 a) < 69 /\ (f2 (f1 a)) mod 16 <= 4.
Proof.
  intros H.
  assert (((f2 (f1 a) <? 69) && (f2 (f1 a) mod 16 <=? 4)) = true) as E.
  { apply (sweep 256 (fun a => (f2 (f1 a) <? 69) && (f2 (f1 a) mod 16 <=? 4))); [vm_compute; reflexivity|exact H]. }
  lia.
Qed.

(** Step 3: (s + (s >> 4)) & 0x0f... *)
Definition f3 (b : N) := N.land (b + b / 16) 0xf.
Lemma sweep3 a r : a < 69 -> r <= 4 -> N.land (a + a / 16 + 16 * r) 0xf = N.land (a + a / 16) 0xf.
Proof.
  intros Ha Hr. assert (Hr' : r < 5) by lia. clear Hr. apply N.eqb_eq.
  apply (sweep 69 (fun a => N.land (a + a / 16 + 16 * r) 0xf =? N.land (a + a / 16) 0xf)); [|exact Ha].
  revert Hr'. apply (sweep 5 (fun r => forallb (fun a => N.land (a + a / 16 + 16 * r) 0xf =? N.land (a + a / 16) 0xf)
    (map N.of_nat (seq 0 69)))). vm_compute. reflexivity.
Qed.
Lemma step3 bs : Forall (fun b => b < 69 /\ b mod 16 <= 4) bs ->
  N.land (wd bs + wd bs / 16) (wd (repeat 0xf (length bs))) = wd (map f3 bs).
Proof.
  induction 1 as [|a bs [Ha Ha2] Hbs IH]; [reflexivity|].
  cbn [length repeat map]. rewrite !wd_cons, <- IH.
  assert (Hm : wd bs mod 16 <= 4).
  { destruct Hbs as [|b bs [Hb1 Hb2]]; [cbn; lia|]. rewrite wd_cons. lia. }
  set (W := wd bs) in *. set (M := wd _) in *.
  assert (a + 256 * W + (a + 256 * W) / 16 = (a + a / 16 + 16 * (W mod 16)) + 256 * (W + W / 16)) as -> by lia.
  rewrite land_lane by (try reflexivity; lia). rewrite sweep3 by lia. unfold f3. lia.
Qed.
Lemma f321 a : a < 256 -> f3 (f2 (f1 a)) = N.of_nat (pop a).
Proof.
  intros H. apply N.eqb_eq.
  apply (sweep 256 (fun a => f3 (f2 (f1 a)) =? N.of_nat (pop a))); [vm_compute; reflexivity|exact H].
Qed.
Lemma pop_byte a : a < 256 -> (pop a <= 8)%nat.
Proof.
  intros H. apply Nat.leb_le.
  apply (sweep 256 (fun a => Nat.leb (pop a) 8)); [vm_compute; reflexivity|exact H].
Qed.

Lemma byte_decomp x : x < two64 ->
  exists x0 x1 x2 x3 x4 x5 x6 x7,
    x = wd [x0; x1; x2; x3; x4; x5; x6; x7] /\ lanes 256 [x0; x1; x2; x3; x4; x5; x6; x7].
Proof.
  intros Hx.
  exists (x mod 256), (x / 256 mod 256), (x / 256 / 256 mod 256), (x / 256 / 256 / 256 mod 256),
    (x / 256 / 256 / 256 / 256 mod 256), (x / 256 / 256 / 256 / 256 / 256 mod 256),
    (x / 256 / 256 / 256 / 256 / 256 / 256 mod 256), (x / 256 / 256 / 256 / 256 / 256 / 256 / 256).
  unfold two64 in Hx. change (2 ^ 64) with 18446744073709551616 in Hx. split.
  - cbn [wd fold_right]. lia.
  - repeat constructor; lia.
Qed.

Lemma wd8_lt bs m : m <= 256 -> lanes m bs -> length bs = 8%nat -> wd bs < two64.
Proof.
  intros Hm H L. do 8 (destruct bs as [|? bs]; [discriminate|]). destruct bs; [|discriminate].
  repeat match goal with H : lanes _ (_ :: _) |- _ => inversion H; subst; clear H
                       | H : Forall _ (_ :: _) |- _ => inversion H; subst; clear H end.
  unfold two64. change (2 ^ 64) with 18446744073709551616. cbn [wd fold_right]. lia.
Qed.

(** The select table. *)
Definition byte_select_ok (a : N) (j : nat) : bool :=
  Nat.leb (pop a) j ||
  (let q := selectInByte a j in Nat.ltb q 8 && tb a q && Nat.eqb (cnt (tb a) q) j).
Lemma selectInByte_ok a j :
  a < 256 -> (j < pop a)%nat ->
  (selectInByte a j < 8)%nat /\ tb a (selectInByte a j) = true /\ cnt (tb a) (selectInByte a j) = j.
Proof.
  intros Ha Hj.
  assert (Hall : forallb (byte_select_ok a) (seq 0 8) = true).
  { apply (sweep 256 (fun a => forallb (byte_select_ok a) (seq 0 8))); [vm_compute; reflexivity|exact Ha]. }
  rewrite forallb_forall in Hall.
  pose proof (pop_byte a Ha).
  assert (Hin : In j (seq 0 8)) by (apply in_seq; lia).
  specialize (Hall j Hin). unfold byte_select_ok in Hall.
  destruct (Nat.leb_spec (pop a) j); [lia|]. cbn [orb] in Hall.
  apply andb_true_iff in Hall as [Hall H3]. apply andb_true_iff in Hall as [H1 H2].
  apply Nat.eqb_eq in H3. apply Nat.ltb_lt in H1. auto.
Qed.

(** Lane-wise comparison k >= c. *)
Definition geq (k c : N) : N := if c <=? k then 128 else 0.
Lemma geq_lane k c : k < 64 -> c <= 64 -> N.land (N.lor k 0x80 - c) 0x80 = geq k c.
Proof.
  intros Hk Hc. assert (Hc' : c < 65) by lia. clear Hc. apply N.eqb_eq.
  apply (sweep 65 (fun c => N.land (N.lor k 0x80 - c) 0x80 =? geq k c)); [|exact Hc'].
  revert Hk. apply (sweep 64 (fun k => forallb (fun c => N.land (N.lor k 0x80 - c) 0x80 =? geq k c)
     (map N.of_nat (seq 0 65)))). vm_compute. reflexivity.
Qed.
Lemma lor80 k : k < 64 -> N.lor k 0x80 = k + 128.
Proof.
  intros H. apply N.eqb_eq.
  apply (sweep 64 (fun k => N.lor k 0x80 =? k + 128)); [vm_compute; reflexivity|exact H].
Qed.

Lemma geq_step k cs : k < 64 -> Forall (fun c => c <= 64) cs ->
  let n := length cs in
  N.land (N.lor (wd (repeat k n)) (wd (repeat 0x80 n)) - wd cs) (wd (repeat 0x80 n)) = wd (map (geq k) cs)
  /\ wd cs <= N.lor (wd (repeat k n)) (wd (repeat 0x80 n)).
Proof.
  intros Hk. induction 1 as [|c cs Hc Hcs [IH1 IH2]]; [split; reflexivity|].
  cbn [length repeat map] in *. rewrite !wd_cons. rewrite !lor_lane by (try reflexivity; lia).
  set (L := N.lor (wd (repeat k _)) _) in *. set (W := wd cs) in *. set (M := wd (repeat 0x80 _)) in *.
  pose proof (lor80 k Hk) as E. split.
  - assert (N.lor k 0x80 + 256 * L - (c + 256 * W) = (N.lor k 0x80 - c) + 256 * (L - W)) as -> by lia.
    rewrite land_lane by (try reflexivity; lia). rewrite geq_lane by auto. lia.
  - lia.
Qed.

Lemma pop_geq k cs : pop (wd (map (geq k) cs)) = length (filter (fun c => c <=? k) cs).
Proof.
  induction cs as [|c cs IH]; [reflexivity|]. cbn [map filter]. rewrite wd_cons.
  unfold geq at 1. destruct (c <=? k).
  - rewrite pop_lane by reflexivity. rewrite IH. reflexivity.
  - rewrite pop_lane by reflexivity. rewrite IH. reflexivity.
Qed.

Close Scope N_scope.

(** cumulative counts *)
Definition c0 (x0 : N) := pop x0.

Lemma tb_wd_cons a bs i :
  (a < 256)%N -> tb (wd (a :: bs)) i = if Nat.ltb i 8 then tb a i else tb (wd bs) (i - 8).
Proof. intros H. rewrite wd_cons. apply (tb_split a (wd bs) 8). exact H. Qed.

Definition nthb (bs : list N) (m : nat) : N := nth m bs 0%N.
Fixpoint popsum (bs : list N) : nat := match bs with [] => 0 | b :: t => pop b + popsum t end.

Lemma tb_wd bs m q : lanes 256 bs -> q < 8 -> tb (wd bs) (8 * m + q) = tb (nthb bs m) q.
Proof.
  intros H. revert m. induction H as [|a bs Ha Hbs IH]; intros m Hq.
  - unfold nthb. destruct m; unfold tb; cbn [wd fold_right nth]; now rewrite !N.bits_0.
  - rewrite tb_wd_cons by auto. destruct m as [|m].
    + destruct (Nat.ltb_spec (8 * 0 + q) 8); [|lia]. reflexivity.
    + destruct (Nat.ltb_spec (8 * S m + q) 8); [lia|].
      replace (8 * S m + q - 8) with (8 * m + q) by lia. now apply IH.
Qed.

Lemma cnt_wd bs m : lanes 256 bs -> cnt (tb (wd bs)) (8 * m) = popsum (firstn m bs).
Proof.
  intros H. revert m. induction H as [|a bs Ha Hbs IH]; intros m.
  - rewrite firstn_nil. apply cnt_false. intros i _. apply N.bits_0.
  - destruct m as [|m]; [reflexivity|].
    replace (8 * S m) with (8 + 8 * m) by lia. rewrite cnt_add. cbn [firstn popsum].
    f_equal.
    + rewrite (pop_cnt a 8) by exact Ha. apply cnt_ext. intros i Hi.
      rewrite tb_wd_cons by auto. destruct (Nat.ltb_spec i 8); [auto|lia].
    + rewrite <- IH. apply cnt_ext. intros i Hi. rewrite tb_wd_cons by auto.
      destruct (Nat.ltb_spec (8 + i) 8); [lia|]. f_equal. lia.
Qed.

(** Bytes extracted by shifting. *)
Lemma shr_byte bs m : lanes 256 bs ->
  N.land (shr64 (wd bs) (N.of_nat (m * 8))) 0xff = nthb bs m.
Proof.
  intros H. change 0xff%N with (N.ones 8).
  assert (Hb : forall m, (nthb bs m < 256)%N).
  { intros j. unfold nthb. destruct (Nat.lt_ge_cases j (length bs)) as [Hl|Hl].
    - apply (proj1 (Forall_nth _ bs) H j 0%N Hl).
    - rewrite nth_overflow by lia. reflexivity. }
  apply tb_inj. intros i. destruct (Nat.lt_ge_cases i 8) as [Hi|Hi].
  - rewrite tb_land. replace (tb (N.ones 8) i) with true by (symmetry; unfold tb; apply N.ones_spec_low; lia).
    rewrite andb_true_r, tb_shr64. rewrite <- tb_wd by auto. f_equal. lia.
  - rewrite (tb_high (nthb bs m) 8 i) by (try apply Hb; auto).
    rewrite tb_land. replace (tb (N.ones 8) i) with false by (symmetry; unfold tb; apply N.ones_spec_high; lia).
    apply andb_false_r.
Qed.

Lemma shl8_lanes cs : lanes 256 cs -> length cs = 8 -> shl64 (wd cs) 8 = wd (0%N :: firstn 7 cs).
Proof.
  intros H L. do 8 (destruct cs as [|? cs]; [discriminate|]). destruct cs; [|discriminate].
  repeat match goal with H : lanes _ (_ :: _) |- _ => inversion H; subst; clear H
                       | H : Forall _ (_ :: _) |- _ => inversion H; subst; clear H end.
  unfold shl64. rewrite N.shiftl_mul_pow2. change (2 ^ 8)%N with 256%N. cbn [firstn]. unfold w64.
  symmetry. apply (N.mod_unique _ _ n6).
  - unfold two64. change (2 ^ 64)%N with 18446744073709551616%N. cbn [wd fold_right]. lia.
  - unfold two64. change (2 ^ 64)%N with 18446744073709551616%N. cbn [wd fold_right]. lia.
Qed.

Definition is_select64 (x : N) (k p : nat) : Prop :=
  p < 64 /\ tb x p = true /\ cnt (tb x) p = k - 1.

Theorem select64Broadword_correct x k :
  (x < two64)%N -> 1 <= k <= pop x ->
  exists p, select64Broadword x (N.of_nat k) = Ok p /\ is_select64 x k p.
Proof.
  intros Hx Hk.
  destruct (byte_decomp x Hx) as (x0&x1&x2&x3&x4&x5&x6&x7&Ex&HL).
  set (bs := [x0; x1; x2; x3; x4; x5; x6; x7]) in *.
  assert (Hlen : length bs = 8) by reflexivity.
  assert (HP : pop x = popsum bs).
  { rewrite pop64_cnt by auto. rewrite Ex. apply (cnt_wd bs 8 HL). }
  assert (Hpb : Forall (fun b => pop b <= 8) bs).
  { eapply Forall_impl; [|exact HL]. intros a Ha. now apply pop_byte. }
  unfold select64Broadword.
  set (kk := sub64 (N.of_nat k) 1).
  assert (Hpop64 : pop x <= 64) by (rewrite pop64_cnt by auto; apply cnt_le).
  assert (Ekk : kk = N.of_nat (k - 1)).
  { unfold kk. rewrite sub64_small; unfold two64; change (2 ^ 64)%N with 18446744073709551616%N; lia. }
  assert (Hkk : (kk < 64)%N) by lia.
  (* step 1 *)
  set (s1 := sub64 x (shr64 (N.land x (0xa * onesStep4)) 1)).
  assert (E1 : s1 = wd (map f1 bs)).
  { unfold s1. change (0xa * onesStep4)%N with (wd (repeat 0xaa%N 8)).
    unfold shr64. rewrite N.shiftr_div_pow2. change (2 ^ 1)%N with 2%N.
    rewrite <- step1 by exact HL. rewrite Hlen, <- Ex.
    apply sub64_small; auto. pose proof (land_le x (wd (repeat 0xaa%N 8))). lia. }
  assert (L1 : lanes 256 (map f1 bs)).
  { apply Forall_map. eapply Forall_impl; [|exact HL]. intros a Ha. cbn beta. pose proof (f1_lane a Ha). lia. }
  (* step 2 *)
  set (s2 := w64 (N.land s1 (0x3 * onesStep4) + N.land (shr64 s1 2) (0x3 * onesStep4))).
  assert (L2 : Forall (fun b => b < 69 /\ b mod 16 <= 4)%N (map f2 (map f1 bs))).
  { rewrite map_map. apply Forall_map. eapply Forall_impl; [|exact HL]. intros a Ha. now apply f21_lane. }
  assert (E2 : s2 = wd (map f2 (map f1 bs))).
  { unfold s2. change (0x3 * onesStep4)%N with (wd (repeat 0x33%N 8)).
    unfold shr64. rewrite N.shiftr_div_pow2. change (2 ^ 2)%N with 4%N. rewrite E1.
    replace 8 with (length (map f1 bs)) by reflexivity. rewrite step2 by exact L1.
    apply w64_small. apply (wd8_lt _ 256); [lia| |reflexivity].
    eapply Forall_impl; [|exact L2]. cbn beta. intros; lia. }
  (* step 3 *)
  set (s3 := N.land (w64 (s2 + shr64 s2 4)) (0xf * onesStep8)).
  set (ps := map (fun b => N.of_nat (pop b)) bs).
  assert (E3 : s3 = wd ps).
  { unfold s3. change (0xf * onesStep8)%N with (wd (repeat 0xf%N 8)).
    unfold shr64. rewrite N.shiftr_div_pow2. change (2 ^ 4)%N with 16%N. rewrite E2.
    rewrite w64_small.
    - replace 8 with (length (map f2 (map f1 bs))) by reflexivity. rewrite step3 by exact L2.
      rewrite !map_map. unfold ps. f_equal. apply map_ext_Forall.
      eapply Forall_impl; [|exact HL]. intros a Ha. now apply f321.
    - assert (Hs : (wd (map f2 (map f1 bs)) < 2 ^ 63)%N).
      { clear - L2. unfold bs in *. cbn [map] in *.
        repeat match goal with H : Forall _ (_ :: _) |- _ => inversion H; subst; clear H end.
        change (2 ^ 63)%N with 9223372036854775808%N. cbn [wd fold_right]. lia. }
      revert Hs. unfold two64. change (2 ^ 63)%N with 9223372036854775808%N.
      change (2 ^ 64)%N with 18446744073709551616%N.
      set (W := wd _). intros Hs. lia. }
  clearbody s3. clear s1 s2 E1 E2 L1 L2.
  (* step 4: prefix sums *)
  set (cs := map (fun m => N.of_nat (popsum (firstn (S m) bs))) (seq 0 8)).
  set (bsum := w64 (s3 * onesStep8)).
  assert (Hpe : Forall (fun p => p <= 8)%N ps).
  { unfold ps. apply Forall_map. eapply Forall_impl; [|exact Hpb]. cbn beta. intros; lia. }
  assert (E4 : bsum = wd cs).
  { unfold bsum. rewrite E3. unfold w64.
    change onesStep8 with (wd [1; 1; 1; 1; 1; 1; 1; 1]%N).
    unfold cs, ps, bs in *. cbn [map seq firstn popsum] in *.
    repeat match goal with H : Forall _ (_ :: _) |- _ => inversion H; subst; clear H end.
    rewrite !Nat2N.inj_add. change (N.of_nat 0) with 0%N.
    generalize dependent (N.of_nat (pop x0)). generalize dependent (N.of_nat (pop x1)).
    generalize dependent (N.of_nat (pop x2)). generalize dependent (N.of_nat (pop x3)).
    generalize dependent (N.of_nat (pop x4)). generalize dependent (N.of_nat (pop x5)).
    generalize dependent (N.of_nat (pop x6)). generalize dependent (N.of_nat (pop x7)).
    clear. intros. symmetry.
    apply (N.mod_unique _ _ (n6 + n5 + n4 + n3 + n2 + n1 + n0
           + 256 * (n5 + n4 + n3 + n2 + n1 + n0 + n) - (n6 + n5 + n4 + n3 + n2 + n1 + n0
           + 256 * (n5 + n4 + n3 + n2 + n1 + n0 + n)) +
           ((n5 + n4 + n3 + n2 + n1 + n0 + n)
            + 256 * (n4 + n3 + n2 + n1 + n0 + n)
            + 65536 * (n3 + n2 + n1 + n0 + n)
            + 16777216 * (n2 + n1 + n0 + n)
            + 4294967296 * (n1 + n0 + n)
            + 1099511627776 * (n0 + n)
            + 281474976710656 * n))%N).
    - unfold two64. change (2 ^ 64)%N with 18446744073709551616%N. cbn [wd fold_right]. lia.
    - unfold two64. change (2 ^ 64)%N with 18446744073709551616%N. cbn [wd fold_right]. lia. }
  assert (Hcs : Forall (fun c => c <= 64)%N cs).
  { unfold cs. apply Forall_map. apply Forall_forall. intros m Hm. apply in_seq in Hm.
    assert (forall l, Forall (fun b => pop b <= 8) l -> popsum l <= 8 * length l) as Hsum.
    { induction l as [|b l IHl]; intros Hl; cbn; [lia|]. inversion Hl; subst. specialize (IHl H2). lia. }
    assert (Hf : Forall (fun b => pop b <= 8) (firstn (S m) bs)).
    { apply Forall_forall. intros b Hb. rewrite Forall_forall in Hpb. apply Hpb.
      rewrite <- (firstn_skipn (S m) bs). apply in_or_app. now left. }
    apply Hsum in Hf.     assert (length (firstn (S m) bs) <= 8) by (rewrite firstn_length; lia). lia. }
  (* step 5: number of lanes with c <= k *)
  set (g := N.land (sub64 (N.lor (w64 (kk * onesStep8)) msbsStep8) bsum) msbsStep8).
  set (m := length (filter (fun c => c <=? kk)%N cs)).
  assert (Eg : pop g = m).
  { assert (Ek8 : w64 (kk * onesStep8) = wd (repeat kk 8)).
    { rewrite w64_small.
      - change onesStep8 with 72340172838076673%N. cbn [repeat wd fold_right]. lia.
      - unfold two64, onesStep8. change (2 ^ 64)%N with 18446744073709551616%N. lia. }
    unfold g. rewrite Ek8, E4. change msbsStep8 with (wd (repeat 0x80%N 8)).
    destruct (geq_step kk cs Hkk Hcs) as [G1 G2]. cbn zeta in *.
    replace (length cs) with 8 in * by reflexivity.
    rewrite sub64_small.
    - rewrite G1. apply pop_geq.
    - apply lor_lt64.
      + apply (wd8_lt _ 256); [lia| |reflexivity]. repeat constructor; lia.
      + reflexivity.
    - exact G2. }
  (* monotone prefix sums: m is the index of the byte *)
  assert (Hm : m < 8 /\ popsum (firstn m bs) <= k - 1 /\ k - 1 < popsum (firstn (S m) bs)).
  { unfold m, cs. rewrite HP in Hk. clear - Hk Ekk.
    assert (Hgen : forall (l : list N) acc, acc <= k - 1 -> k - 1 < acc + popsum l ->
       let m := length (filter (fun c => c <=? kk)%N (map (fun j => N.of_nat (acc + popsum (firstn (S j) l))) (seq 0 (length l)))) in
       m < length l /\ acc + popsum (firstn m l) <= k - 1 /\ k - 1 < acc + popsum (firstn (S m) l)).
    { induction l as [|b l IHl]; intros acc H1 H2; cbn [popsum] in *; [lia|].
      cbn [length seq map filter]. 
      assert (E0 : popsum (firstn 1 (b :: l)) = pop b) by (cbn; lia). rewrite E0.
      set (rest := map _ (seq 1 (length l))).
      assert (Er : rest = map (fun j => N.of_nat ((acc + pop b) + popsum (firstn (S j) l))) (seq 0 (length l))).
      { unfold rest. rewrite <- seq_shift, map_map. apply map_ext. intros j.
        cbn [firstn popsum]. f_equal. destruct l; cbn [popsum]; lia. }
      rewrite Er.
      destruct (N.leb_spec (N.of_nat (acc + pop b)) kk).
      - cbn [length]. cbn zeta in IHl. destruct (IHl (acc + pop b)) as (I1&I2&I3); [lia|lia|].
        set (mm := length _) in *. cbn [firstn popsum] in *. split; [lia|]. split; [lia|].
        destruct l; cbn [firstn popsum] in *; lia.
      - assert (Hnil : filter (fun c => c <=? kk)%N
           (map (fun j => N.of_nat ((acc + pop b) + popsum (firstn (S j) l))) (seq 0 (length l))) = []).
        { apply (proj1 (forallb_filter_id _ _)) || idtac.
          clear - H. induction (seq 0 (length l)) as [|j js IHj]; [reflexivity|]. cbn [map filter].
          destruct (N.leb_spec (N.of_nat (acc + pop b + popsum (firstn (S j) l))) kk); [lia|]. exact IHj. }
        rewrite Hnil. cbn [length firstn popsum]. lia. }
    specialize (Hgen bs 0). cbn zeta in Hgen. cbn [Nat.add] in Hgen. apply Hgen; lia. }
  destruct Hm as (Hm8 & Hm1 & Hm2).
  rewrite Eg.
  (* step 6: byteRank *)
  assert (Hcl : lanes 256 cs). { eapply Forall_impl; [|exact Hcs]. cbn beta. intros; lia. }
  assert (EbR : sub64 kk (N.land (shr64 (shl64 bsum 8) (N.of_nat (m * 8))) 0xff)
                = N.of_nat (k - 1 - popsum (firstn m bs))).
  { assert (Esh : shl64 bsum 8 = wd (0%N :: firstn 7 cs)).
    { rewrite E4. apply shl8_lanes; [exact Hcl|reflexivity]. }
    rewrite Esh. rewrite shr_byte.
    - assert (En : nthb (0%N :: firstn 7 cs) m = N.of_nat (popsum (firstn m bs))).
      { unfold nthb, cs. clear - Hm8. do 8 (destruct m as [|m]; [reflexivity|]). lia. }
      rewrite En. rewrite sub64_small; [lia| |lia].
      unfold two64. change (2 ^ 64)%N with 18446744073709551616%N. lia.
    - constructor; [lia|]. apply Forall_forall. intros c Hc.
      unfold lanes in Hcl. rewrite Forall_forall in Hcl. apply Hcl.
      rewrite <- (firstn_skipn 7 cs). apply in_or_app. now left. }
  cbv zeta. rewrite EbR.
  assert (Hbyte : N.land (shr64 x (N.of_nat (m * 8))) 0xff = nthb bs m)
    by (rewrite Ex; now apply shr_byte).
  rewrite Hbyte.
  assert (Hsplit : popsum (firstn (S m) bs) = popsum (firstn m bs) + pop (nthb bs m)).
  { clear - Hm8. do 8 (destruct m as [|m]; [cbn; lia|]). lia. }
  assert (Hxm : (nthb bs m < 256)%N).
  { apply (proj1 (Forall_nth _ bs) HL m 0%N). lia. }
  pose proof (pop_byte _ Hxm) as Hpm.
  unfold selectInByteLut.
  destruct (N.ltb_spec (nthb bs m) 256); [|lia].
  destruct (N.ltb_spec (N.of_nat (k - 1 - popsum (firstn m bs))) 8); [|lia].
  cbn [andb bind]. rewrite Nat2N.id.
  destruct (selectInByte_ok (nthb bs m) (k - 1 - popsum (firstn m bs))) as (S1&S2&S3); [auto|lia|].
  set (q := selectInByte _ _) in *.
  exists (m * 8 + q). split; [reflexivity|]. split; [lia|].
  replace (m * 8 + q) with (8 * m + q) by lia. rewrite Ex. split.
  - rewrite tb_wd by auto. exact S2.
  - rewrite cnt_add, cnt_wd by auto. rewrite (cnt_ext _ (tb (nthb bs m))).
    + lia.
    + intros i Hi. apply tb_wd; auto. lia.
Qed.

(** ** The BMI2 sequence DECQ; SHLXQ; PDEPQ; TZCNTQ. *)
Lemma pdep_past n i j j0 mask acc :
  (j0 < j)%N -> pdep_loop n i j (N.shiftl 1 j0) mask acc = acc.
Proof.
  revert i j. induction n as [|n IH]; intros i j H; cbn [pdep_loop]; [reflexivity|].
  destruct (N.testbit mask i).
  - replace (N.testbit (N.shiftl 1 j0) j) with false; [apply IH; lia|].
    symmetry. rewrite N.shiftl_1_l. apply N.pow2_bits_false. lia.
  - now apply IH.
Qed.

Lemma pdep_select n i p j0 mask acc :
  i <= p < i + n -> tb mask p = true -> cnt (tb mask) p = j0 ->
  pdep_loop n (N.of_nat i) (N.of_nat (cnt (tb mask) i)) (N.shiftl 1 (N.of_nat j0)) mask acc
  = N.setbit acc (N.of_nat p).
Proof.
  revert i. induction n as [|n IH]; intros i Hi Hp Hj; [lia|]. cbn [pdep_loop].
  fold (tb mask i). destruct (Nat.eq_dec i p) as [->|Hne].
  - rewrite Hp. rewrite Hj. rewrite N.shiftl_1_l, N.pow2_bits_true, <- N.shiftl_1_l.
    apply pdep_past. lia.
  - assert (E : (N.of_nat i + 1 = N.of_nat (S i))%N) by lia. rewrite E.
    destruct (tb mask i) eqn:Ei.
    + assert (Hc : cnt (tb mask) (S i) <= cnt (tb mask) p) by (apply cnt_mono; lia).
      cbn [cnt] in Hc. rewrite Ei in Hc.
      replace (N.testbit (N.shiftl 1 (N.of_nat j0)) (N.of_nat (cnt (tb mask) i))) with false.
      * replace (N.of_nat (cnt (tb mask) i) + 1)%N with (N.of_nat (cnt (tb mask) (S i))).
        -- apply IH; auto; lia.
        -- cbn [cnt]. rewrite Ei. lia.
      * symmetry. rewrite N.shiftl_1_l. apply N.pow2_bits_false. lia.
    + replace (cnt (tb mask) i) with (cnt (tb mask) (S i)) by (cbn [cnt]; rewrite Ei; lia).
      apply IH; auto; lia.
Qed.

Theorem select64_pdep_correct x k :
  (x < two64)%N -> 1 <= k <= pop x ->
  exists p, select64_amd64 true x (N.of_nat k) = Ok p /\ is_select64 x k p.
Proof.
  intros Hx Hk. rewrite pop64_cnt in Hk by auto.
  pose proof (cnt_le (tb x) 64).
  destruct (cnt_select_exists (tb x) 64 (k - 1)) as (p&Hp&Hb&Hc); [lia|].
  exists p. split; [|split; auto]. unfold select64_amd64. f_equal.
  rewrite sub64_small by (unfold two64; change (2 ^ 64)%N with 18446744073709551616%N; lia).
  replace (N.of_nat k - 1)%N with (N.of_nat (k - 1)) by lia.
  rewrite N.mod_small by lia.
  assert (E : shl64 1 (N.of_nat (k - 1)) = N.shiftl 1 (N.of_nat (k - 1))).
  { unfold shl64. apply w64_small. rewrite N.shiftl_1_l. unfold two64. apply N.pow_lt_mono_r; lia. }
  rewrite E. unfold pdep64.
  pose proof (pdep_select 64 0 p (k - 1) x 0) as Hsel.
  change (N.of_nat 0) with 0%N in Hsel. change (N.of_nat (cnt (tb x) 0)) with 0%N in Hsel.
  rewrite Hsel by (auto; lia).
  apply ctz64_unique.
  - unfold tb. apply N.setbit_eq.
  - intros i Hi. unfold tb. rewrite N.setbit_neq by lia. apply N.bits_0.
Qed.

Theorem select64_agree x k :
  (x < two64)%N -> 1 <= k <= pop x ->
  select64_amd64 true x (N.of_nat k) = select64_other x (N.of_nat k).
Proof.
  intros Hx Hk.
  destruct (select64_pdep_correct x k Hx Hk) as (p & E1 & _ & P1 & P2).
  destruct (select64Broadword_correct x k Hx Hk) as (q & E2 & _ & Q1 & Q2).
  unfold select64_other. rewrite E1, E2. f_equal.
  apply (cnt_select_unique (tb x)); auto. congruence.
Qed.
