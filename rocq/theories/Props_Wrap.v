(** * ART, any number of goroutines, version words of 64 bits: property C61. *)
From Verif Require Import Base BitsModel VecModel ArtNode ArtModel ArtSpec ArtConc ArtConcSpec ArtConcRun
  ArtFine ArtFineSpec ArtFineRun ArtFineProofs ArtFineProps ArtWrap ArtWrapProofs ArtWrapBad ArtWrapSim Props_Fine.

(** ** C61: Concurrent operations stay linearizable however many operations have run. *)
(** Full statement: [forall h s, wexec h s -> linearizable h].  It is false. *)
Theorem C61_linearizable_refuted : exists h s, wexec h s /\ ~ linearizable h.
Proof.
  destruct sleeping_get as (h & s & E & P & R). exists h, s. split; [exact E|exact (put_first_not_lin _ _ _ P R)].
Qed.
Print Assumptions C61_linearizable_refuted.

(** What happens there: [k] is put, nobody deletes it, and a Get of [k] called after the Put
    returned returns nil. *)
Theorem C61_key_missed : exists k v h s, wexec h s /\ In (ERet 1 None) h /\
  (forall t, ~ In (ECall t (ODelete k)) h) /\ (forall o, In (ECall 2 o) h -> o = OPut k v) /\
  (forall h1 o h2, h = h1 ++ ECall 1 o :: h2 -> o = OGet k /\ In (ERet 2 None) h1).
Proof.
  destruct sleeping_get as (h & s & E & P & R). exists kb, [2], h, s. split; [exact E|]. split; [exact R|exact P].
Qed.
Print Assumptions C61_key_missed.

(** It holds if fewer than 2^62 events happen while any one operation runs; how many operations
    have completed before, and how often the words have wrapped, does not matter. *)
Theorem C61_linearizable_partial : forall h s, wexec h s -> brisk h -> linearizable h.
Proof.
  intros h s E Br. destruct (sim_wexec h s E Br) as (s0 & E0 & _). destruct (fine_linearizable h s0 E0) as (L & st & LI & _). now exists L, st.
Qed.
Print Assumptions C61_linearizable_partial.

(** The histories are then exactly those of the machine with unbounded words, and at the end
    memory is the same but for the wrapping; the same goroutines have panicked. *)
Theorem C61_same_memory_partial : forall h s, wexec h s -> brisk h -> exists s0, fexec h s0 /\ fs_mem s = wrap (fs_mem s0) /\
  forall t o, fs_thr s t = TAt (PCrash o) <-> fs_thr s0 t = TAt (PCrash o).
Proof.
  intros h s E Br. destruct (sim_wexec h s E Br) as (s0 & E0 & M & X & _). exists s0. split; [exact E0|]. split; [exact M|].
  intros t o. specialize (X t). split; intros Y; rewrite Y in X.
  - destruct (fs_thr s0 t) as [p| | |]; cbn in X; try contradiction. destruct p; cbn in X; try discriminate X. now injection X as ->.
  - destruct (fs_thr s t) as [p| | |]; cbn in X; try contradiction. now rewrite X.
Qed.
Print Assumptions C61_same_memory_partial.
Theorem C61_same_histories_partial : forall h, brisk h -> ((exists s, wexec h s) <-> (exists s, fexec h s)).
Proof.
  intros h Br. split; intros (s & E).
  - destruct (sim_wexec h s E Br) as (s0 & E0 & _). now exists s0.
  - destruct (sim_fexec h s E Br) as (s1 & E1 & _). now exists s1.
Qed.
Print Assumptions C61_same_histories_partial.

(** In executions of fewer than 2^62 events nothing wraps at all. *)
Theorem C61_short : forall h s, (N.of_nat (length h) < 2 ^ 62)%N -> (wexec h s <-> fexec h s).
Proof. exact wrap_same. Qed.
Print Assumptions C61_short.

(** The hypotheses are met by an execution in which two goroutines wait for a third, and by
    one in which a word has wrapped around. *)
Example C61_nonvacuous : wexec (events_of ex_wait) (state_of ex_wait) /\ brisk (events_of ex_wait).
Proof.
  assert (F : (N.of_nat (length (events_of ex_wait)) < 2 ^ 62)%N) by (vm_compute; reflexivity).
  split; [apply C61_short; [exact F|apply runs_ok_exec; vm_compute; reflexivity]|exact (brisk_short _ F)].
Qed.
Example C61_nonvacuous_wrapped : exists h s c, wexec h s /\ brisk h /\ (2 ^ 62 <= N.of_nat (length h))%N /\
  nth_error (m_cells (fs_mem s)) 1 = Some c /\ c_ver c = 8%N.
Proof. exact calm_run. Qed.
