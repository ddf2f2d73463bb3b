(** * ArtLivelock: two Puts that make each other start over for ever. *)
From Verif Require Import Base BitsModel VecModel ArtNode ArtModel ArtSpec ArtConc ArtConcRun ArtFine ArtFineSpec ArtFineRun ArtFineProofs.

(** The tree holds "ab1" and "ab2".  Goroutine 1 puts "ac", which must split the node for
    "ab": it locks the root, then that node.  Goroutine 2 puts "ab3", which goes into the
    node for "ab": it locks that node, then checks that the root is as it was. *)
Definition opA : op := OPut [97; 99] [3].
Definition opB : op := OPut [97; 98; 51] [4].
Definition prep : list (nat * act) :=
  [(0, ACall (OPut [97; 98; 49] [1])); (0, AFin); (0, ARet); (0, ACall (OPut [97; 98; 50] [2])); (0, AFin); (0, ARet);
   (1, ACall opA); (2, ACall opB)].
Definition prep_state : fsys := match frun finit prep with Some (_, s) => s | None => finit end.
Definition prep_events : list ev := match frun finit prep with Some (h, _) => h | None => [] end.
Lemma prep_exec : fexec prep_events prep_state.
Proof.
  unfold prep_events, prep_state. destruct (frun finit prep) as [(h, s)|] eqn:E; [|vm_compute in E; discriminate].
  exact (frun_exec prep finit [] h s fexec_nil E).
Qed.

(** One round: 1 goes up to its first lock, 2 goes up to its first lock, then both fail. *)
Definition round : list nat := repeat 1 33 ++ repeat 2 47 ++ [1; 2; 1; 2; 1; 2; 1; 2].

Definition nd0 : node := Eval vm_compute in match nth_error (m_cells (fs_mem prep_state)) 0 with Some c => c_node c | None => newNode4 end.
Definition nd1 : node := Eval vm_compute in match nth_error (m_cells (fs_mem prep_state)) 1 with Some c => c_node c | None => newNode4 end.
Definition nd2 : node := Eval vm_compute in match nth_error (m_cells (fs_mem prep_state)) 2 with Some c => c_node c | None => newNode4 end.
(** The memory between two rounds. *)
Definition between (r c : N) : mem := mkMem [mkCell 0 nd0; mkCell r nd1; mkCell c nd2] (PNode 1).

(** What happens to the memory and to the two goroutines. *)
Inductive walk : list nat -> mem -> ft -> ft -> mem -> ft -> ft -> Prop :=
  | walk_nil m x y : walk [] m x y m x y
  | walk_1 l m x y m' x' mz xz yz : fgo false m x = Some (m', x') -> walk l m' x' y mz xz yz -> walk (1 :: l) m x y mz xz yz
  | walk_2 l m x y m' y' mz xz yz : fgo false m y = Some (m', y') -> walk l m' x y' mz xz yz -> walk (2 :: l) m x y mz xz yz.

Lemma round_walk r c : N.testbit r 0 = false -> N.testbit r 1 = false -> N.testbit c 0 = false -> N.testbit c 1 = false ->
  walk round (between r c) (TAt (PStart opA)) (TAt (PStart opB)) (between (r + 2 + 2) (c + 2 + 2)) (TAt (PStart opA)) (TAt (PStart opB)).
Proof.
  intros R0 R1 C0 C1.
  assert (ER : (r =? r + 2)%N = false) by (apply N.eqb_neq; lia).
  assert (EC : (c =? c + 2)%N = false) by (apply N.eqb_neq; lia).
  assert (ER' : (r + 2 =? r)%N = false) by (apply N.eqb_neq; lia).
  assert (EC' : (c + 2 =? c)%N = false) by (apply N.eqb_neq; lia).
  let l := eval vm_compute in round in change round with l.
  do 88 ((eapply walk_1 || eapply walk_2);
    [repeat (progress (cbv -[N.testbit N.eqb N.add]; rewrite ?R0, ?R1, ?C0, ?C1, ?ER, ?EC, ?ER', ?EC', ?N.eqb_refl)); reflexivity|]).
  apply walk_nil.
Qed.

(** ** The rounds for ever *)
Definition who (i : nat) : nat := nth (i mod 88) round 0.
Fixpoint again (i : nat) : fsys :=
  match i with
  | O => prep_state
  | S i => match ftau1 (again i) (who i) with Some s => s | None => again i end
  end.
Definition moves (i : nat) : Prop := fstep (again i) (ETau (who i)) (again (S i)).

Lemma again_step i t m' x' : who i = t -> fgo false (fs_mem (again i)) (fs_thr (again i) t) = Some (m', x') ->
  moves i /\ again (S i) = mkFS m' (fupd (fs_thr (again i)) t x').
Proof.
  intros W G. assert (E : again (S i) = mkFS m' (fupd (fs_thr (again i)) t x')) by (cbn [again]; unfold ftau1; now rewrite W, G).
  split; [|exact E]. unfold moves. rewrite E, W. eapply fst_tau. exact G.
Qed.

Lemma walk_again l m x y mz xz yz : walk l m x y mz xz yz -> forall i,
  fs_mem (again i) = m -> fs_thr (again i) 1 = x -> fs_thr (again i) 2 = y -> (forall j, j < length l -> who (i + j) = nth j l 0) ->
  (forall j, j < length l -> moves (i + j)) /\
  fs_mem (again (i + length l)) = mz /\ fs_thr (again (i + length l)) 1 = xz /\ fs_thr (again (i + length l)) 2 = yz.
Proof.
  intros W. induction W as [m x y|l m x y m' x' mz xz yz G W IH|l m x y m' y' mz xz yz G W IH]; intros i EM EX EY WH.
  - cbn [length]. rewrite Nat.add_0_r. split; [intros j J; inversion J|auto].
  - assert (W0 : who i = 1) by (specialize (WH 0 ltac:(cbn; lia)); now rewrite Nat.add_0_r in WH).
    rewrite <- EM, <- EX in G. destruct (again_step _ _ _ _ W0 G) as (MV & E1).
    destruct (IH (S i)) as (H1 & H2); try (rewrite E1; cbn [fs_mem fs_thr]; rewrite ?fupd_eq, ?fupd_ne by lia; auto; fail).
    { intros j J. specialize (WH (S j) ltac:(cbn; lia)). rewrite Nat.add_succ_r in WH. exact WH. }
    cbn [length]. rewrite Nat.add_succ_r. split; [|exact H2].
    intros [|j] J; [now rewrite Nat.add_0_r|]. rewrite Nat.add_succ_r. apply (H1 j). lia.
  - assert (W0 : who i = 2) by (specialize (WH 0 ltac:(cbn; lia)); now rewrite Nat.add_0_r in WH).
    rewrite <- EM, <- EY in G. destruct (again_step _ _ _ _ W0 G) as (MV & E1).
    destruct (IH (S i)) as (H1 & H2); try (rewrite E1; cbn [fs_mem fs_thr]; rewrite ?fupd_eq, ?fupd_ne by lia; auto; fail).
    { intros j J. specialize (WH (S j) ltac:(cbn; lia)). rewrite Nat.add_succ_r in WH. exact WH. }
    cbn [length]. rewrite Nat.add_succ_r. split; [|exact H2].
    intros [|j] J; [now rewrite Nat.add_0_r|]. rewrite Nat.add_succ_r. apply (H1 j). lia.
Qed.

Lemma quiet_4 q : N.testbit (4 * q) 0 = false /\ N.testbit (4 * q) 1 = false.
Proof. change 4%N with (2 ^ 2)%N. rewrite N.mul_comm. split; apply N.mul_pow2_bits_low; lia. Qed.

Lemma who_in j k : k < 88 -> who (88 * j + k) = nth k round 0.
Proof. intros K. unfold who. f_equal. rewrite Nat.add_comm, Nat.mul_comm, Nat.mod_add by lia. now apply Nat.mod_small. Qed.

Lemma rounds j : exists r c, fs_mem (again (88 * j)) = between (4 * r) (4 * c) /\
  fs_thr (again (88 * j)) 1 = TAt (PStart opA) /\ fs_thr (again (88 * j)) 2 = TAt (PStart opB) /\ forall k, k < 88 -> moves (88 * j + k).
Proof.
  assert (ONE : forall j r c, fs_mem (again (88 * j)) = between (4 * r) (4 * c) ->
     fs_thr (again (88 * j)) 1 = TAt (PStart opA) -> fs_thr (again (88 * j)) 2 = TAt (PStart opB) ->
     (forall k, k < 88 -> moves (88 * j + k)) /\ fs_mem (again (88 * j + 88)) = between (4 * r + 2 + 2) (4 * c + 2 + 2) /\
     fs_thr (again (88 * j + 88)) 1 = TAt (PStart opA) /\ fs_thr (again (88 * j + 88)) 2 = TAt (PStart opB)).
  { clear j. intros j r c EM E1 E2. destruct (quiet_4 r) as (R0 & R1). destruct (quiet_4 c) as (C0 & C1).
    apply (walk_again _ _ _ _ _ _ _ (round_walk _ _ R0 R1 C0 C1) (88 * j) EM E1 E2). intros k K. now apply who_in. }
  induction j as [|j IH].
  - exists 2%N, 0%N. assert (B : fs_mem (again (88 * 0)) = between (4 * 2) (4 * 0)) by (vm_compute; reflexivity).
    assert (B1 : fs_thr (again (88 * 0)) 1 = TAt (PStart opA)) by (vm_compute; reflexivity).
    assert (B2 : fs_thr (again (88 * 0)) 2 = TAt (PStart opB)) by (vm_compute; reflexivity).
    destruct (ONE 0 2%N 0%N B B1 B2) as (MV & _). auto.
  - destruct IH as (r & c & EM & E1 & E2 & _). destruct (ONE _ _ _ EM E1 E2) as (_ & EM' & E1' & E2').
    replace (88 * j + 88) with (88 * S j) in * by lia. exists (r + 1)%N, (c + 1)%N.
    replace (4 * r + 2 + 2)%N with (4 * (r + 1))%N in EM' by lia. replace (4 * c + 2 + 2)%N with (4 * (c + 1))%N in EM' by lia.
    destruct (ONE _ _ _ EM' E1' E2') as (MV & _). auto.
Qed.

Theorem puts_forever : exists h (run : nat -> fsys) (who : nat -> nat),
  fexec h (run 0) /\ running h 1 opA /\ running h 2 opB /\ (forall t, t <> 1 -> t <> 2 -> fs_thr (run 0) t = TAt PIdle) /\
  (forall i, fstep (run i) (ETau (who i)) (run (S i)) /\ (who i = 1 \/ who i = 2)) /\
  (forall i t, t = 1 \/ t = 2 -> exists j, i <= j /\ who j = t).
Proof.
  exists prep_events, again, who.
  assert (DM : forall i, i = 88 * (i / 88) + i mod 88 /\ i mod 88 < 88) by (intros i; split; [apply Nat.div_mod; lia|apply Nat.mod_upper_bound; lia]).
  split; [exact prep_exec|]. split; [|split; [|split; [|split]]].
  - exists (removelast (removelast prep_events)), [ECall 2 opB]. split; [vm_compute; reflexivity|]. intros x [X|[]]. discriminate.
  - exists (removelast prep_events), []. split; [vm_compute; reflexivity|auto].
  - intros t N1 N2. destruct t as [|[|[|t]]]; [vm_compute; reflexivity|now destruct N1|now destruct N2|]. vm_compute. reflexivity.
  - intros i. destruct (DM i) as (D & M). split.
    + destruct (rounds (i / 88)) as (r & c & _ & _ & _ & MV). specialize (MV _ M). rewrite <- D in MV. exact MV.
    + assert (A : forallb (fun x => Nat.eqb x 1 || Nat.eqb x 2) round = true) by (vm_compute; reflexivity).
      rewrite forallb_forall in A. specialize (A (who i) (nth_In round 0 (n := i mod 88) M)). apply orb_true_iff in A.
      destruct A as [A|A]; apply Nat.eqb_eq in A; auto.
  - intros i t T. destruct (DM i) as (D & M). set (q := i / 88) in *. destruct T as [->| ->].
    + exists (88 * (q + 1) + 0). split; [lia|]. rewrite who_in by lia. reflexivity.
    + exists (88 * (q + 1) + 81). split; [lia|]. rewrite who_in by lia. reflexivity.
Qed.

Lemma again_moves i : moves i.
Proof.
  destruct (rounds (i / 88)) as (r & c & _ & _ & _ & MV). specialize (MV (i mod 88) ltac:(apply Nat.mod_upper_bound; lia)).
  rewrite <- (Nat.div_mod i 88) in MV by lia. exact MV.
Qed.
(** Any part of the run. *)
Lemma again_steps n : forall i, fsteps (again i) (map (fun j => ETau (who j)) (seq i n)) (again (i + n)).
Proof.
  induction n as [|n IH]; intros i; cbn [seq map]; [rewrite Nat.add_0_r; constructor|]. econstructor; [exact (again_moves i)|].
  rewrite Nat.add_succ_r. apply (IH (S i)).
Qed.
