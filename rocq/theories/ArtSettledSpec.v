(** * The tree after concurrent use: specification vocabulary. *)
From Verif Require Import Base BitsModel VecModel ArtNode ArtModel ArtSpec ArtConc ArtConcSpec ArtFine ArtFineSpec.

(** No node is locked. *)
Definition quiet (s : fsys) : Prop := forall n, flockbit s n = false.
(** Trees reached by any concurrent use up to a moment when no node is locked, followed by
    single-goroutine use. *)
Definition settled (m : mem) : Prop :=
  exists h s ops outs, fexec h s /\ quiet s /\ Forall valid_op ops /\ runs (fs_mem s) ops m outs.
