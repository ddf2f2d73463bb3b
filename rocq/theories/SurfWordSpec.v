(** * SurfWordSpec: statements on Build and Get with uint32 arithmetic. *)
From Verif Require Import Base SurfModel SurfWord.

(** [s] is what [Build] on a fresh builder returned. *)
Definition built32 (fp : bytes -> N) (vs h r : nat) (keys vals : list bytes) (hint : Z) (s : surf) : Prop :=
  exists fuel, Forall (fun k => length k < fuel) keys /\ surf_build32 fp fuel (newBuilder vs h r) keys vals hint = Ok s.
