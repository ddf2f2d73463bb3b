(** * ART, any number of goroutines, one field at a time: properties C11-C16 and C43.

    The statements are those of Props_Conc.v for the machine of ArtFine.v, in which every
    load and store of a field is a step of its own. *)
From Coq Require Import Relations.
From Verif Require Import Base BitsModel VecModel ArtNode ArtModel ArtSpec ArtConc ArtConcSpec ArtConcRun
  ArtFine ArtFineSpec ArtFineRun ArtFineProofs ArtFineProps ArtFineNoDel.

(** ** Concrete executions *)
Definition whole (t : nat) (o : op) : list (nat * act) := [(t, ACall o); (t, AFin); (t, ARet)].
Definition state_of (l : list (nat * act)) : fsys := match frun finit l with Some (_, s) => s | None => finit end.
Definition events_of (l : list (nat * act)) : list ev := match frun finit l with Some (h, _) => h | None => [] end.
Definition runs_ok (l : list (nat * act)) : bool := match frun finit l with Some _ => true | None => false end.
Lemma runs_ok_exec l : runs_ok l = true -> fexec (events_of l) (state_of l).
Proof.
  unfold runs_ok, events_of, state_of. destruct (frun finit l) as [(h, s)|] eqn:E; [|discriminate]. intros _.
  exact (frun_exec l finit [] h s fexec_nil E).
Qed.

(** The keys "ab1", "ab2" and "ac": an inner node for "a" (number 3) whose children are an
    inner node for "ab" (number 2) and a leaf. *)
Definition k_ab1 : bytes := [97; 98; 49].
Definition k_ab2 : bytes := [97; 98; 50].
Definition k_ac : bytes := [97; 99].
Definition k_ab : bytes := [97; 98].
Definition setup : list (nat * act) :=
  whole 0 (OPut k_ab1 [1]) ++ whole 0 (OPut k_ab2 [2]) ++ whole 0 (OPut k_ac [3]).

(** Goroutine 2 inserts "ab3" and has stored some of the fields of node 2; goroutine 0
    deletes "ac", holds nodes 3 and 1 and waits for node 2; goroutine 1 is inside a Get
    and waits for node 3. *)
Definition ex_wait : list (nat * act) :=
  setup ++ [(1, ACall (OGet k_ab1)); (1, ASteps 13);
            (2, ACall (OPut [97; 98; 51] [5])); (2, ASteps 73);
            (0, ACall (ODelete k_ac)); (0, ASteps 31)].
(** Goroutine 1 is about to read the prefix length of node 2 for the second time when
    goroutine 0 deletes "ac". *)
Definition ex_panic : list (nat * act) :=
  setup ++ [(1, ACall (OPut k_ab [4])); (1, ASteps 54)] ++ whole 0 (ODelete k_ac) ++ [(1, ASteps 3)].
(** Goroutine 1, in a Get, has loaded one field of node 2; goroutine 0 has stored half of
    the new prefix of node 2; goroutine 1 loads the next field. *)
Definition ex_torn : list (nat * act) :=
  setup ++ [(1, ACall (OGet k_ab1)); (1, ASteps 33);
            (0, ACall (ODelete k_ac)); (0, ASteps 45); (1, AStep)].

(** ** The two machines have the same histories of calls and returns. *)
Theorem C13_fields_to_groups : forall h s, fexec h s -> exists hc cs, exec hc cs /\ visible hc = visible h /\
  (forall t o, fs_thr s t = TAt (PCrash o) -> s_thr cs t = PCrash o).
Proof.
  intros h s F. destruct (sim_exec h s F) as (hc & cs & E & SM & V). exists hc, cs. split; auto. split; auto.
  intros t o ET. rewrite (sm_thr _ _ SM), ET. reflexivity.
Qed.
Print Assumptions C13_fields_to_groups.

(** ** C11: A node has at most one writer. *)
Theorem C11_one_writer_fields : forall h s ow e s', foexec h s ow -> fstep s e s' ->
  (forall n, flockbit s n = true <-> ow n <> None) /\
  (forall n c, fcell s n = Some c -> exists c', fcell s' n = Some c' /\
     (c_ver c' <> c_ver c ->
        (flockbit s n = false /\ flockbit s' n = true /\ c_ver c' = (c_ver c + 2)%N) \/
        (ow n = Some (ev_thread e) /\ flockbit s' n = false)) /\
     (c_node c' <> c_node c -> ow n = Some (ev_thread e) /\ flockbit s' n = true)) /\
  (m_root (fs_mem s') <> m_root (fs_mem s) -> ow 0 = Some (ev_thread e)).
Proof. exact fine_one_writer. Qed.
Print Assumptions C11_one_writer_fields.

Theorem C11_owners_exist_fields : forall h s, fexec h s -> exists ow, foexec h s ow.
Proof. exact fexec_foexec. Qed.
Print Assumptions C11_owners_exist_fields.

Example C11_nonvacuous_fields : fexec (events_of ex_wait) (state_of ex_wait) /\
  map (flockbit (state_of ex_wait)) [0; 1; 2; 3; 4] = [false; true; true; true; false].
Proof. split; [apply runs_ok_exec; vm_compute; reflexivity|vm_compute; reflexivity]. Qed.

(** ** C12: A validated optimistic read saw a quiescent node. *)
Theorem C12_quiescent : forall h s l s' n c c', fexec h s -> fsteps s l s' ->
  fcell s n = Some c -> fcell s' n = Some c' ->
  locked (c_ver c) = false -> obsolete (c_ver c) = false -> c_ver c' = c_ver c ->
  forall l1 s1 l2, l = l1 ++ l2 -> fsteps s l1 s1 -> fsteps s1 l2 s' -> fcell s1 n = Some c.
Proof. exact fine_quiescent. Qed.
Print Assumptions C12_quiescent.

(** Every field of the node loaded in between, by any goroutine, is that of [c]. *)
Theorem C12_values : forall h s l s' n c c', fexec h s -> fcell s n = Some c -> fcell s' n = Some c' ->
  locked (c_ver c) = false -> obsolete (c_ver c) = false -> c_ver c' = c_ver c ->
  forall l1 s1 t s2 l2 p r, l = l1 ++ ETau t :: l2 -> fsteps s l1 s1 -> fstep s1 (ETau t) s2 -> fsteps s2 l2 s' ->
  fs_thr s1 t = TRd p n r -> (forall q, r <> RDone q) -> fs_thr s2 t = TRd p n (rstep (c_node c) r).
Proof. exact fine_values. Qed.
Print Assumptions C12_values.

(** A retired node never changes again; it cannot be reached from the root (looking at the
    tree when no lock is held). *)
Theorem C12_retired : forall h s n c, fexec h s -> fcell s n = Some c -> obsolete (c_ver c) = true ->
  ((forall a, flockbit s a = false) -> ~ reach (fs_mem s) n) /\ forall l s', fsteps s l s' -> fcell s' n = Some c.
Proof. exact fine_retired. Qed.
Print Assumptions C12_retired.

(** The hypotheses are met: node 3 is retired, node 2 is not. *)
Definition ex_retired : list (nat * act) := setup ++ whole 0 (ODelete k_ac).
Example C12_nonvacuous_fields : fexec (events_of ex_retired) (state_of ex_retired) /\
  option_map (fun c => obsolete (c_ver c)) (fcell (state_of ex_retired) 3) = Some true /\
  option_map (fun c => (locked (c_ver c), obsolete (c_ver c))) (fcell (state_of ex_retired) 2) = Some (false, false).
Proof. split; [apply runs_ok_exec; vm_compute; reflexivity|vm_compute; auto]. Qed.

(** Without the condition on the versions the claim would be false: goroutine 1 is in the
    middle of its loads from node 2 while goroutine 0 is in the middle of its stores. *)
Example C12_torn : fexec (events_of ex_torn) (state_of ex_torn) /\
  (exists p r, fs_thr (state_of ex_torn) 1 = TRd p 2 r) /\
  (exists p x y ws fn, fs_thr (state_of ex_torn) 0 = TWr p (x :: y :: ws) fn) /\
  option_map (fun c => c_node c) (fcell (state_of ex_torn) 2) <> option_map (fun c => c_node c) (fcell (state_of setup) 2).
Proof.
  split; [apply runs_ok_exec; vm_compute; reflexivity|]. split; [vm_compute; eexists _, _; reflexivity|].
  split; [vm_compute; eexists _, _, _, _, _; reflexivity|vm_compute; discriminate].
Qed.

(** ** C13: Concurrent operations are linearizable. *)
Theorem C13_linearizable_fields : forall h s, fexec h s -> exists L st, lin h L st /\
  forall t o, fs_thr s t = TAt (PCrash o) -> st t = SPend o.
Proof. exact fine_linearizable. Qed.
Print Assumptions C13_linearizable_fields.

Definition ex_lin : list (nat * act) :=
  ex_wait ++ [(2, AFin); (2, ARet); (0, AFin); (0, ARet); (1, AFin); (1, ARet)] ++ whole 1 (OGet [97; 98; 51]).
Definition ex_lin2 : list (nat * act) := ex_torn ++ [(0, AFin); (0, ARet); (1, AFin); (1, ARet)].
Definition answers (l : list (nat * act)) : list ev :=
  filter (fun e => match e with ERet _ (Some _) => true | _ => false end) (events_of l).
Example C13_nonvacuous_fields : fexec (events_of ex_lin) (state_of ex_lin) /\ fexec (events_of ex_lin2) (state_of ex_lin2) /\
  answers ex_lin = [ERet 1 (Some [1]); ERet 1 (Some [5])] /\ answers ex_lin2 = [ERet 1 (Some [1])].
Proof. split; [apply runs_ok_exec; vm_compute; reflexivity|split; [apply runs_ok_exec; vm_compute; reflexivity|vm_compute; auto]]. Qed.

(** ** C14: Concurrent use never panics: false here as well. *)
Theorem C14_no_panic_fields_refuted : exists h s t o, fexec h s /\ fs_thr s t = TAt (PCrash o).
Proof.
  exists (events_of ex_panic), (state_of ex_panic), 1, (OPut k_ab [4]).
  split; [apply runs_ok_exec; vm_compute; reflexivity|vm_compute; reflexivity].
Qed.
Print Assumptions C14_no_panic_fields_refuted.

Theorem C14_no_panic_fields_partial : forall h s ow t o, foexec h s ow -> fs_thr s t = TAt (PCrash o) ->
  (exists k v, o = OPut k v) /\ forall n, ow n <> Some t.
Proof. exact fine_only_put_panics. Qed.
Print Assumptions C14_no_panic_fields_partial.

(** ** C43: An execution in which no Put runs at the same time as a Delete does not panic: Puts
    and Gets, or Deletes and Gets, may overlap in any way. *)
Theorem C43_no_panic_apart : forall h s t o, fexec h s -> apart h -> fs_thr s t <> TAt (PCrash o).
Proof. exact fine_apart_no_panic. Qed.
Print Assumptions C43_no_panic_apart.

(** Two Deletes and a Get overlap; then two Puts and the same Get do.  At the end goroutine
    2 is in the middle of splitting the prefix "yz" whose length goroutine 1 has read. *)
Definition ex_apart : list (nat * act) :=
  setup ++ [(1, ACall (ODelete k_ac)); (1, ASteps 20); (2, ACall (ODelete k_ab2)); (2, ASteps 9); (3, ACall (OGet k_ab1)); (3, ASteps 5);
            (1, AFin); (1, ARet); (2, AFin); (2, ARet);
            (1, ACall (OPut [120; 121; 122; 49] [4])); (2, ACall (OPut [120; 121; 122; 50] [4])); (1, AFin); (1, ARet); (2, AFin); (2, ARet);
            (1, ACall (OPut [120; 121; 122] [6])); (1, ASteps 37); (2, ACall (OPut [120; 113] [5])); (2, ASteps 42); (1, ASteps 3)].
Definition live_ops (h : list ev) : list (nat * op) :=
  fold_left (fun l e => match e with
    | ECall t o => (t, o) :: l
    | ERet t _ => filter (fun x => negb (Nat.eqb (fst x) t)) l
    | ETau _ => l end) h [].
Lemma live_running h t o : running h t o -> In (t, o) (live_ops h).
Proof.
  intros (h1 & h2 & -> & N). unfold live_ops. rewrite fold_left_app. cbn [fold_left].
  match goal with |- In _ (fold_left _ _ ((t, o) :: ?l)) => generalize l end.
  enough (X : forall l, In (t, o) l -> In (t, o) (fold_left (fun l e => match e with
    | ECall t o => (t, o) :: l | ERet t _ => filter (fun x => negb (Nat.eqb (fst x) t)) l | ETau _ => l end) h2 l)) by (intros l; apply X; left; auto).
  induction h2 as [|e h2 IH]; intros l Hl; cbn [fold_left]; auto. apply IH; [intros x X; apply (N x); right; auto|].
  destruct e as [t' o'|t' x|t']; [right; auto| |auto]. apply filter_In. split; auto. cbn [fst].
  destruct (Nat.eqb_spec t t') as [<-|]; auto. destruct (N x (or_introl eq_refl)).
Qed.
Definition mixed (l : list (nat * op)) : bool :=
  existsb (fun x => match snd x with OPut _ _ => true | _ => false end) l && existsb (fun x => match snd x with ODelete _ => true | _ => false end) l.
Definition apartb (h : list ev) : bool := forallb (fun n => negb (mixed (live_ops (firstn n h)))) (seq 0 (Datatypes.S (length h))).
Lemma apartb_sound h : apartb h = true -> apart h.
Proof.
  intros H h1 h2 t k v u k' -> R1 R2. unfold apartb in H. rewrite forallb_forall in H. specialize (H (length h1)).
  rewrite firstn_app, Nat.sub_diag, firstn_all in H. cbn [firstn] in H. rewrite app_nil_r in H.
  assert (M : mixed (live_ops h1) = true).
  { apply andb_true_iff. split; apply existsb_exists; [exists (t, OPut k v)|exists (u, ODelete k')]; (split; [now apply live_running|reflexivity]). }
  rewrite M in H. discriminate H. apply in_seq. rewrite app_length. lia.
Qed.
Lemma running_by l n t o : nth_error (events_of l) n = Some (ECall t o) ->
  forallb (fun e => match e with ERet u _ => negb (Nat.eqb u t) | _ => true end) (skipn (n + 1) (events_of l)) = true -> running (events_of l) t o.
Proof.
  intros H F. destruct (nth_error_split _ _ H) as (h1 & h2 & E & L). exists h1, h2. split; auto. intros x X.
  rewrite forallb_forall in F. assert (Y : skipn (n + 1) (events_of l) = h2).
  { rewrite E, skipn_app, skipn_all2 by lia. replace (n + 1 - length h1) with 1 by lia. reflexivity. }
  rewrite Y in F. specialize (F _ X). cbn in F. now rewrite Nat.eqb_refl in F.
Qed.
Definition call_at (l : list (nat * act)) (t : nat) : nat :=
  fold_left (fun acc x => match snd x with ECall u _ => if Nat.eqb u t then fst x else acc | _ => acc end)
    (combine (seq 0 (length (events_of l))) (events_of l)) 0.
Example C43_nonvacuous_apart : fexec (events_of ex_apart) (state_of ex_apart) /\ apart (events_of ex_apart) /\
  running (events_of ex_apart) 1 (OPut [120; 121; 122] [6]) /\ running (events_of ex_apart) 2 (OPut [120; 113] [5]) /\
  (exists p ws fn, fs_thr (state_of ex_apart) 2 = TWr p ws fn) /\ ~ apart (events_of ex_panic).
Proof.
  split; [apply runs_ok_exec; vm_compute; reflexivity|]. split; [apply apartb_sound; vm_compute; reflexivity|].
  split; [apply (running_by _ (call_at ex_apart 1)); vm_compute; reflexivity|].
  split; [apply (running_by _ (call_at ex_apart 2)); vm_compute; reflexivity|].
  split; [vm_compute; eauto|]. intros AP. eapply (C43_no_panic_apart _ (state_of ex_panic) 1); [|exact AP|vm_compute; reflexivity].
  apply runs_ok_exec; vm_compute; reflexivity.
Qed.

(** ** C15: No deadlock. *)
Theorem C15_no_deadlock_fields : forall h s ow t n, foexec h s ow -> fwaiting s t n ->
  exists u k, ow k = Some u /\ fable s u.
Proof. exact fine_no_deadlock. Qed.
Print Assumptions C15_no_deadlock_fields.

Theorem C15_no_cycle_fields : forall h s ow t, foexec h s ow -> ~ clos_trans nat (fwaits_for s ow) t t.
Proof. exact fine_no_cycle. Qed.
Print Assumptions C15_no_cycle_fields.

(** A goroutine that cannot take a step has panicked or waits. *)
Theorem C15_only_waits_fields : forall s t, ~ fable s t -> (exists o, fs_thr s t = TAt (PCrash o)) \/ exists n, fwaiting s t n.
Proof. exact fine_only_waits. Qed.
Print Assumptions C15_only_waits_fields.

Example C15_nonvacuous_fields : fexec (events_of ex_wait) (state_of ex_wait) /\
  fwaiting (state_of ex_wait) 1 3 /\ fwaiting (state_of ex_wait) 0 2.
Proof. split; [apply runs_ok_exec; vm_compute; reflexivity|split; split; vm_compute; reflexivity]. Qed.

(** ** C16: An operation running alone finishes. *)
Theorem C16_runs_alone_fields : forall h s t o, fexec h s -> (forall n, flockbit s n = false) ->
  fs_thr s t = TAt PIdle -> valid_op o -> (forall k, o <> ODelete k) ->
  ffinishes t (mkFS (fs_mem s) (fupd (fs_thr s) t (TAt (PStart o)))).
Proof. exact fine_runs_alone. Qed.
Print Assumptions C16_runs_alone_fields.

Definition ex_alone : list (nat * act) :=
  setup ++ [(1, ACall (OPut k_ab [4])); (1, ASteps 54)] ++ whole 0 (ODelete k_ac).
Example C16_nonvacuous_fields : fexec (events_of ex_alone) (state_of ex_alone) /\
  (forall n, flockbit (state_of ex_alone) n = false) /\ fs_thr (state_of ex_alone) 2 = TAt PIdle /\
  fs_thr (state_of ex_alone) 1 <> TAt PIdle /\ valid_op (OPut k_ab1 [7]).
Proof.
  split; [apply runs_ok_exec; vm_compute; reflexivity|]. split; [|split; [vm_compute; reflexivity|split; [vm_compute; discriminate|]]].
  - intros n. do 8 (destruct n as [|n]; [vm_compute; reflexivity|]). vm_compute. now destruct n.
  - unfold k_ab1. repeat split; repeat constructor; cbn; lia.
Qed.
