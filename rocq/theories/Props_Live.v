(** * ART, operations that run at the same time: properties C58-C60. *)
From Verif Require Import Base BitsModel VecModel ArtNode ArtModel ArtSpec ArtConc ArtConcSpec ArtConcRun
  ArtFine ArtFineSpec ArtFineRun ArtBeside ArtBesideProofs ArtBlame ArtLivelock.
From Verif Require Props_Fine.

(** ** C58: Gets hold nobody up.  [passes t h s] (in ArtBeside) says that goroutine t,
    whatever Gets other goroutines start, continue or finish in between, can always take
    a step until it has a result, and gets to a result after finitely many steps of its
    own.  Operations of further goroutines may be stopped anywhere. *)
Theorem C58_beside_gets : forall h s t o, exec h s -> (forall n, lockbit s n = false) ->
  s_thr s t = PIdle -> valid_op o -> (forall k, o <> ODelete k) ->
  passes t (h ++ [ECall t o]) (mkSys (s_mem s) (upd_thr (s_thr s) t (PStart o))).
Proof. exact beside_gets. Qed.
Print Assumptions C58_beside_gets.

Theorem C58_beside_gets_fields : forall h s t o, fexec h s -> (forall n, flockbit s n = false) ->
  fs_thr s t = TAt PIdle -> valid_op o -> (forall k, o <> ODelete k) ->
  fpasses t (h ++ [ECall t o]) (mkFS (fs_mem s) (fupd (fs_thr s) t (TAt (PStart o)))).
Proof. exact fbeside_gets. Qed.
Print Assumptions C58_beside_gets_fields.

(** Goroutine 1 is inside a Get; it goes on, and goroutine 3 starts another Get, while
    goroutine 2 is inside its Put. *)
Definition ex_get : list (nat * act) := Props_Fine.setup ++ [(1, ACall (OGet Props_Fine.k_ab1)); (1, ASteps 13)].
Definition ex_put : list (nat * act) := ex_get ++ [(2, ACall (OPut Props_Fine.k_ab [4]))].
Lemma ftau1_inv s t s1 : ftau1 s t = Some s1 -> exists x', fgo false (fs_mem s) (fs_thr s t) = Some (fs_mem s1, x') /\ fs_thr s1 = fupd (fs_thr s) t x'.
Proof. unfold ftau1. destruct (fgo false (fs_mem s) (fs_thr s t)) as [(m', x')|]; [|discriminate]. intros H. injection H as <-. eauto. Qed.
Example C58_nonvacuous : fexec (Props_Fine.events_of ex_get) (Props_Fine.state_of ex_get) /\
  (forall n, flockbit (Props_Fine.state_of ex_get) n = false) /\ fs_thr (Props_Fine.state_of ex_get) 2 = TAt PIdle /\
  valid_op (OPut Props_Fine.k_ab [4]) /\
  exists h' s', fbeside 2 (Props_Fine.events_of ex_put) (Props_Fine.state_of ex_put) h' s' /\
    h' = Props_Fine.events_of ex_put ++ [ETau 1; ECall 3 (OGet [1]); ETau 3].
Proof.
  split; [apply Props_Fine.runs_ok_exec; vm_compute; reflexivity|]. split.
  { intros n. do 8 (destruct n as [|n]; [vm_compute; reflexivity|]). vm_compute. now destruct n. }
  split; [vm_compute; reflexivity|]. split; [repeat split; repeat constructor; cbn; lia|].
  assert (R : running (Props_Fine.events_of ex_put) 1 (OGet Props_Fine.k_ab1)).
  { apply (Props_Fine.running_by ex_put (Props_Fine.call_at ex_put 1)); vm_compute; reflexivity. }
  destruct (ftau1 (Props_Fine.state_of ex_put) 1) as [s1|] eqn:E1; [|vm_compute in E1; discriminate E1].
  destruct (ftau1_inv _ _ _ E1) as (x1 & G1 & T1).
  assert (I3 : fs_thr s1 3 = TAt PIdle) by (rewrite T1; unfold fupd; cbn [Nat.eqb]; vm_compute; reflexivity).
  set (s2 := mkFS (fs_mem s1) (fupd (fs_thr s1) 3 (TAt (PStart (OGet [1]))))).
  assert (M1 : fs_mem s1 = fs_mem (Props_Fine.state_of ex_put)).
  { eapply (fgpc_step false _ Props_Fine.k_ab1); [|exact G1]. eapply fgpc_exec; [|exact R]. apply Props_Fine.runs_ok_exec. vm_compute. reflexivity. }
  destruct (ftau1 s2 3) as [s3|] eqn:E3.
  2: { exfalso. unfold ftau1, s2 in E3. cbn [fs_mem fs_thr] in E3. rewrite M1 in E3. vm_compute in E3. discriminate E3. }
  set (h0 := Props_Fine.events_of ex_put) in *. clearbody h0. clear M1.
  exists (h0 ++ [ETau 1; ECall 3 (OGet [1]); ETau 3]), s3. split; [|reflexivity].
  eapply fbs_step; [exact (ftau1_ok _ _ _ E1)|split; [discriminate|eauto]|].
  eapply fbs_step; [eapply (fst_call s1 3 (OGet [1])); [exact I3|vm_compute; repeat split; repeat constructor]|split; [discriminate|eauto]|].
  eapply fbs_step; [exact (ftau1_ok _ _ _ E3)|split; [discriminate|]|].
  { exists [1]. exists (h0 ++ [ETau 1]), []. split; [reflexivity|auto]. }
  rewrite <- !app_assoc. cbn [app]. constructor.
Qed.

(** ** C59: A Get or Put starts over only because of somebody else.  [blame s l s' t] (in
    ArtBeside): one of the events [l] between the states [s] and [s'] is a step of
    another goroutine that changes some node's version word, which only locking and
    unlocking do. *)
Theorem C59_restart_blame : forall h s l s' t o, exec h s -> steps s l s' -> (forall k, o <> ODelete k) ->
  s_thr s t = PStart o -> In (ETau t) l -> (forall x, ~ In (ERet t x) l) -> s_thr s' t = PStart o -> blame s l s' t.
Proof. intros h s l s' t o E ST ND P0 IN NR P1. exact (restart_blame t o ND h s l s' E ST P0 IN NR P1). Qed.
Print Assumptions C59_restart_blame.

Theorem C59_restart_blame_fields : forall h s l s' t o, fexec h s -> fsteps s l s' -> (forall k, o <> ODelete k) ->
  fs_thr s t = TAt (PStart o) -> In (ETau t) l -> (forall x, ~ In (ERet t x) l) -> fs_thr s' t = TAt (PStart o) -> fblame s l s' t.
Proof. intros h s l s' t o E ST ND P0 IN NR P1. exact (frestart_blame t o ND h s l s' E ST P0 IN NR P1). Qed.
Print Assumptions C59_restart_blame_fields.

(** The first round of the run of C60. *)
Example C59_nonvacuous : fexec prep_events (again 0) /\ exists l, fsteps (again 0) l (again 88) /\
  fs_thr (again 0) 1 = TAt (PStart opA) /\ In (ETau 1) l /\ (forall x, ~ In (ERet 1 x) l) /\ fs_thr (again 88) 1 = TAt (PStart opA).
Proof.
  split; [exact prep_exec|]. exists (map (fun j => ETau (who j)) (seq 0 88)). split; [exact (again_steps 88 0)|].
  split; [vm_compute; reflexivity|]. split; [left; vm_compute; reflexivity|]. split; [|vm_compute; reflexivity].
  intros x X. apply in_map_iff in X as (j & J & _). discriminate J.
Qed.

(** A Delete can start over for no such reason: C16. *)

(** ** C60: Of the operations in progress at least one returns.  False: goroutine 1 puts
    "ac" and goroutine 2 puts "ab3" into a tree with "ab1" and "ab2"; nobody else runs.
    In an infinite run in which both take steps again and again, neither returns. *)
Theorem C60_progress_refuted : exists h (run : nat -> fsys) (who : nat -> nat),
  fexec h (run 0) /\ running h 1 (OPut [97; 99] [3]) /\ running h 2 (OPut [97; 98; 51] [4]) /\
  (forall t, t <> 1 -> t <> 2 -> fs_thr (run 0) t = TAt PIdle) /\
  (forall i, fstep (run i) (ETau (who i)) (run (S i)) /\ (who i = 1 \/ who i = 2)) /\
  (forall i t, t = 1 \/ t = 2 -> exists j, i <= j /\ who j = t).
Proof. exact puts_forever. Qed.
Print Assumptions C60_progress_refuted.
