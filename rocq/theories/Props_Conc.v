(** * ART, any number of goroutines: properties C11-C16. *)
From Coq Require Import Relations.
From Verif Require Import Base BitsModel VecModel ArtNode ArtModel ArtSpec ArtConc ArtConcSpec ArtConcRun ArtConcLock ArtConcSolo.

(** ** Concrete executions *)
Definition whole (t : nat) (o : op) : list (nat * act) := [(t, ACall o); (t, AFin); (t, ARet)].
Definition state_of (l : list (nat * act)) : sys := match run init l with Some (_, s) => s | None => init end.
Definition events_of (l : list (nat * act)) : list ev := match run init l with Some (h, _) => h | None => [] end.
Definition runs_ok (l : list (nat * act)) : bool := match run init l with Some _ => true | None => false end.
Lemma runs_ok_exec l : runs_ok l = true -> exec (events_of l) (state_of l).
Proof.
  unfold runs_ok, events_of, state_of. destruct (run init l) as [(h, s)|] eqn:E; [|discriminate]. intros _.
  exact (run_exec l init [] h s exec_nil E).
Qed.

(** The keys "ab1", "ab2" and "ac": an inner node for "a" whose children are an inner
    node for "ab" and a leaf. *)
Definition k_ab1 : bytes := [97; 98; 49].
Definition k_ab2 : bytes := [97; 98; 50].
Definition k_ac : bytes := [97; 99].
Definition k_ab : bytes := [97; 98].
Definition setup : list (nat * act) :=
  whole 0 (OPut k_ab1 [1]) ++ whole 0 (OPut k_ab2 [2]) ++ whole 0 (OPut k_ac [3]).

(** Goroutine 2 inserts "ab3" and is inside its critical section, holding the node for
    "ab" (number 2); goroutine 0 deletes "ac", holds the node for "a" (number 3) and the
    root (number 1) and waits for number 2; goroutine 1 is inside a Get and waits for
    number 3. *)
Definition ex_wait : list (nat * act) :=
  setup ++ [(1, ACall (OGet k_ab1)); (1, ASteps 7);
            (2, ACall (OPut [97; 98; 51] [5])); (2, ASteps 28);
            (0, ACall (ODelete k_ac)); (0, ASteps 16)].

(** Goroutine 1 is about to read the prefix length of the node for "ab" for the second
    time when goroutine 0 deletes "ac". *)
Definition ex_panic : list (nat * act) :=
  setup ++ [(1, ACall (OPut k_ab [4])); (1, ASteps 22)] ++ whole 0 (ODelete k_ac) ++ [(1, AStep)].

(** ** C11: A node has at most one writer.

    [oexec h s ow] says which goroutine set each node's lock bit, looking at the version
    words only. *)
Theorem C11_one_writer : forall h s ow e s', oexec h s ow -> step s e s' ->
  (forall n, lockbit s n = true <-> ow n <> None) /\
  (forall n c, cell_of s n = Some c -> exists c', cell_of s' n = Some c' /\
     (c_ver c' <> c_ver c ->
        (lockbit s n = false /\ lockbit s' n = true /\ c_ver c' = (c_ver c + 2)%N) \/
        (ow n = Some (ev_thread e) /\ lockbit s' n = false)) /\
     (c_node c' <> c_node c -> ow n = Some (ev_thread e) /\ lockbit s' n = true)) /\
  (m_root (s_mem s') <> m_root (s_mem s) -> ow 0 = Some (ev_thread e)).
Proof. exact one_writer. Qed.
Print Assumptions C11_one_writer.

(** Every execution has such a record of owners. *)
Theorem C11_owners_exist : forall h s, exec h s -> exists ow, oexec h s ow.
Proof. exact exec_oexec. Qed.
Print Assumptions C11_owners_exist.

Example C11_nonvacuous : exec (events_of ex_wait) (state_of ex_wait) /\
  map (lockbit (state_of ex_wait)) [0; 1; 2; 3; 4] = [false; true; true; true; false].
Proof. split; [apply runs_ok_exec; vm_compute; reflexivity|vm_compute; reflexivity]. Qed.

(** ** C12: A validated optimistic read saw a quiescent node. *)
Theorem C12_quiescent_groups : forall h s l s' n c c', exec h s -> steps s l s' ->
  cell_of s n = Some c -> cell_of s' n = Some c' ->
  locked (c_ver c) = false -> obsolete (c_ver c) = false -> c_ver c' = c_ver c ->
  forall l1 s1 l2, l = l1 ++ l2 -> steps s l1 s1 -> steps s1 l2 s' -> cell_of s1 n = Some c.
Proof. exact quiescent. Qed.
Print Assumptions C12_quiescent_groups.

Theorem C12_retired_for_ever : forall h s n c, exec h s -> cell_of s n = Some c -> obsolete (c_ver c) = true ->
  ~ reach (s_mem s) n /\ forall l s', steps s l s' -> cell_of s' n = Some c.
Proof. exact retired. Qed.
Print Assumptions C12_retired_for_ever.

Definition ex_retired : list (nat * act) := setup ++ whole 0 (ODelete k_ac).
Example C12_nonvacuous : exec (events_of ex_retired) (state_of ex_retired) /\
  option_map (fun c => obsolete (c_ver c)) (cell_of (state_of ex_retired) 3) = Some true /\
  option_map (fun c => (locked (c_ver c), obsolete (c_ver c))) (cell_of (state_of ex_retired) 2) = Some (false, false).
Proof. split; [apply runs_ok_exec; vm_compute; reflexivity|vm_compute; auto]. Qed.

(** ** C13: Concurrent operations are linearizable.  A Put that panicked has no effect. *)
Theorem C13_linearizable : forall h s, exec h s -> exists L st, lin h L st /\
  forall t o, s_thr s t = PCrash o -> st t = SPend o.
Proof. exact history_linearizable. Qed.
Print Assumptions C13_linearizable.

(** Three goroutines, overlapping operations, all of which return. *)
Definition ex_lin : list (nat * act) :=
  ex_wait ++ [(2, AFin); (2, ARet); (0, AFin); (0, ARet); (1, AFin); (1, ARet)] ++ whole 1 (OGet [97; 98; 51]).
Example C13_nonvacuous : exec (events_of ex_lin) (state_of ex_lin) /\
  filter (fun e => match e with ERet _ (Some _) => true | _ => false end) (events_of ex_lin) = [ERet 1 (Some [1]); ERet 1 (Some [5])].
Proof. split; [apply runs_ok_exec; vm_compute; reflexivity|vm_compute; reflexivity]. Qed.

(** The definition rejects a lookup that misses a key stored before it was called. *)
Definition bad_history : list ev := [ECall 0 (OPut k_ab [1]); ERet 0 None; ECall 1 (OGet k_ab); ERet 1 None].
Example C13_rejects : ~ linearizable bad_history.
Proof.
  assert (X : forall h L st, lin h L st ->
    (h = [] -> L = [] /\ (forall t, st t = SIdle)) /\
    (h = firstn 1 bad_history -> (forall t, t <> 0 -> st t = SIdle) /\
       ((L = [] /\ st 0 = SPend (OPut k_ab [1])) \/ (L = [OPut k_ab [1]] /\ exists r, st 0 = SDone (OPut k_ab [1]) r))) /\
    (h = firstn 2 bad_history -> L = [OPut k_ab [1]] /\ (forall t, st t = SIdle)) /\
    (h = firstn 3 bad_history -> (forall t, t <> 1 -> st t = SIdle) /\
       ((L = [OPut k_ab [1]] /\ st 1 = SPend (OGet k_ab)) \/ st 1 = SDone (OGet k_ab) (Some [1]))) /\
    h <> bad_history).
  { assert (SN : forall (h : list ev) e l x, h ++ [e] = l ++ [x] -> h = l /\ e = x) by (intros; now apply app_inj_tail).
    intros h L st H. induction H as [st H|h L st t o st' H IH E (C1 & C2)|h L st t o r st' H IH E (C1 & C2)|h L st t H IH|h L st t o st' H IH E (C1 & C2)].
    - split; [auto|]. repeat split; discriminate.
    - destruct IH as (I0 & I1 & I2 & I3 & I4). split; [|split; [|split; [|split]]]; intros HH.
      + destruct h; discriminate. 
      + apply (SN h _ []) in HH as (-> & HH). inversion HH; subst. destruct (I0 eq_refl) as (-> & Z).
        split; [intros u Hu; rewrite C2 by auto; auto|auto].
      + apply (SN h _ [_]) in HH as (_ & HH). discriminate.
      + apply (SN h _ [_; _]) in HH as (-> & HH). inversion HH; subst. destruct (I2 eq_refl) as (-> & Z).
        split; [intros u Hu; rewrite C2 by auto; auto|auto].
      + apply (SN h _ [_; _; _]) in HH as (_ & HH). discriminate.
    - destruct IH as (I0 & I1 & I2 & I3 & I4). split; [|split; [|split; [|split]]]; intros HH.
      + destruct h; discriminate. 
      + apply (SN h _ []) in HH as (_ & HH). discriminate.
      + apply (SN h _ [_]) in HH as (-> & HH). inversion HH; subst. destruct (I1 eq_refl) as (Z & [(_ & Y)|(-> & _)]); [congruence|].
        split; [reflexivity|]. intros u. destruct (Nat.eq_dec u 0) as [->|N]; auto. rewrite C2 by auto. auto.
      + apply (SN h _ [_; _]) in HH as (_ & HH). discriminate.
      + apply (SN h _ [_; _; _]) in HH as (-> & HH). inversion HH; subst. destruct (I3 eq_refl) as (_ & [(_ & Y)|Y]); congruence.
    - assert (N : forall l, ~ In (ETau t) l -> h ++ [ETau t] <> l). { intros l NI HH. apply NI. rewrite <- HH. apply in_or_app. right. left. auto. }
      split; [|split; [|split; [|split]]]; intros HH; exfalso; revert HH; apply N; cbn; intuition discriminate.
    - destruct IH as (I0 & I1 & I2 & I3 & I4). split; [|split; [|split; [|split]]]; auto.
      + intros ->. exfalso. destruct (I0 eq_refl) as (_ & Z). rewrite Z in E. discriminate.
      + intros ->. destruct (I1 eq_refl) as (Z & [(-> & Y)|(-> & q & Y)]).
        * assert (t = 0) by (destruct (Nat.eq_dec t 0); auto; rewrite Z in E by auto; discriminate). subst t. rewrite Y in E. inversion E; subst.
          split; [intros u Hu; rewrite C2 by auto; auto|]. right. split; auto. eexists. exact C1.
        * exfalso. destruct (Nat.eq_dec t 0) as [->|N]; [congruence|]. rewrite Z in E by auto. discriminate.
      + intros ->. exfalso. destruct (I2 eq_refl) as (_ & Z). rewrite Z in E. discriminate.
      + intros ->. destruct (I3 eq_refl) as (Z & [(-> & Y)|Y]).
        * assert (t = 1) by (destruct (Nat.eq_dec t 1); auto; rewrite Z in E by auto; discriminate). subst t. rewrite Y in E. inversion E; subst.
          split; [intros u Hu; rewrite C2 by auto; auto|]. right. rewrite C1. reflexivity.
        * exfalso. destruct (Nat.eq_dec t 1) as [->|N]; [congruence|]. rewrite Z in E by auto. discriminate. }
  intros (L & st & H). exact (proj2 (proj2 (proj2 (proj2 (X _ _ _ H)))) eq_refl).
Qed.

(** ** C14: Concurrent use never panics: false.  Put compares the length of the matching
    prefix with the node's prefix length, reads the prefix length again and adds it to the
    depth; a Delete that merges the parent into the node in between makes it longer, and
    key[depth] is out of range. *)
Theorem C14_no_panic_refuted : exists h s t o, exec h s /\ s_thr s t = PCrash o.
Proof.
  exists (events_of ex_panic), (state_of ex_panic), 1, (OPut k_ab [4]).
  split; [apply runs_ok_exec; vm_compute; reflexivity|vm_compute; reflexivity].
Qed.
Print Assumptions C14_no_panic_refuted.

(** What holds: Get and Delete never panic, and a Put that panics holds no lock.  (That it
    had no effect is part of C13.) *)
Theorem C14_no_panic_partial : forall h s ow t o, oexec h s ow -> s_thr s t = PCrash o ->
  (exists k v, o = OPut k v) /\ forall n, ow n <> Some t.
Proof. exact only_put_panics. Qed.
Print Assumptions C14_no_panic_partial.

(** ** C15: No deadlock. *)
Theorem C15_no_deadlock : forall h s ow t n, oexec h s ow -> waiting s t n ->
  exists u k, ow k = Some u /\ able s u.
Proof. exact no_deadlock. Qed.
Print Assumptions C15_no_deadlock.

Theorem C15_no_cycle : forall h s ow t, oexec h s ow -> ~ clos_trans nat (waits_for s ow) t t.
Proof. exact no_wait_cycle. Qed.
Print Assumptions C15_no_cycle.

(** [polls] names every point at which the machine waits. *)
Theorem C15_only_waits : forall first nd m p, tstep first nd m p = SBlock ->
  p = PIdle \/ (exists o, p = PCrash o) \/ (exists o r, p = PRet o r) \/
  (exists n c, polls p = Some n /\ nth_error (m_cells m) n = Some c /\ locked (c_ver c) = true).
Proof. exact block_polls. Qed.
Print Assumptions C15_only_waits.

(** Goroutine 1 waits for goroutine 0, which waits for goroutine 2. *)
Example C15_nonvacuous : exec (events_of ex_wait) (state_of ex_wait) /\
  waiting (state_of ex_wait) 1 3 /\ waiting (state_of ex_wait) 0 2.
Proof. split; [apply runs_ok_exec; vm_compute; reflexivity|split; split; vm_compute; reflexivity]. Qed.

(** ** C16: An operation running alone finishes.  [finishes t s] (in ArtConcSpec) says that
    goroutine t, if it is the only one to run, can take a step until it has a result, and
    whichever steps it takes it gets to a result after finitely many.  Other goroutines
    may be anywhere inside their operations. *)
Theorem C16_runs_alone : forall h s t o, exec h s -> (forall n, lockbit s n = false) ->
  s_thr s t = PIdle -> valid_op o -> (forall k, o <> ODelete k) ->
  finishes t (mkSys (s_mem s) (upd_thr (s_thr s) t (PStart o))).
Proof. exact runs_alone. Qed.
Print Assumptions C16_runs_alone.

(** Goroutine 1 is inside a Put, goroutine 0 has removed nodes; goroutine 2 starts. *)
Definition ex_alone : list (nat * act) :=
  setup ++ [(1, ACall (OPut k_ab [4])); (1, ASteps 22)] ++ whole 0 (ODelete k_ac).
Example C16_nonvacuous : exec (events_of ex_alone) (state_of ex_alone) /\
  (forall n, lockbit (state_of ex_alone) n = false) /\ s_thr (state_of ex_alone) 2 = PIdle /\
  s_thr (state_of ex_alone) 1 <> PIdle /\ valid_op (OPut k_ab1 [7]).
Proof.
  split; [apply runs_ok_exec; vm_compute; reflexivity|]. split; [|split; [vm_compute; reflexivity|split; [vm_compute; discriminate|]]].
  - intros n. do 8 (destruct n as [|n]; [vm_compute; reflexivity|]). vm_compute. now destruct n.
  - unfold k_ab1. repeat split; repeat constructor; cbn; lia.
Qed.
