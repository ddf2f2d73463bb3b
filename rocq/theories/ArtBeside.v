(** * ArtBeside: an operation that runs beside Gets only.

    No code is modelled here. *)
From Verif Require Import Base BitsModel VecModel ArtNode ArtModel ArtSpec ArtConc ArtConcSpec ArtFine ArtFineSpec.

(** An event of another goroutine that runs a Get. *)
Definition getting (t : nat) (h : list ev) (e : ev) : Prop :=
  ev_thread e <> t /\
  match e with
  | ECall _ o => exists k, o = OGet k
  | ERet _ _ => True
  | ETau u => exists k, running h u (OGet k)
  end.

(** A stretch of such events; [h] is what has happened so far. *)
Inductive beside (t : nat) : list ev -> sys -> list ev -> sys -> Prop :=
  | bs_nil h s : beside t h s h s
  | bs_step h s e s1 h' s' : step s e s1 -> getting t h e -> beside t (h ++ [e]) s1 h' s' -> beside t h s h' s'.

(** Whatever Gets come in between, goroutine [t] is never stuck and reaches its return
    after finitely many steps of its own. *)
Inductive passes (t : nat) : list ev -> sys -> Prop :=
  | pa_ret h s o r : s_thr s t = PRet o r -> passes t h s
  | pa_step h s : (forall h' s', beside t h s h' s' ->
        (exists s2, step s' (ETau t) s2) /\ (forall s2, step s' (ETau t) s2 -> passes t (h' ++ [ETau t]) s2)) ->
      passes t h s.

(** The same for the machine that reads and writes single fields. *)
Inductive fbeside (t : nat) : list ev -> fsys -> list ev -> fsys -> Prop :=
  | fbs_nil h s : fbeside t h s h s
  | fbs_step h s e s1 h' s' : fstep s e s1 -> getting t h e -> fbeside t (h ++ [e]) s1 h' s' -> fbeside t h s h' s'.
Inductive fpasses (t : nat) : list ev -> fsys -> Prop :=
  | fpa_ret h s o r : fs_thr s t = TAt (PRet o r) -> fpasses t h s
  | fpa_step h s : (forall h' s', fbeside t h s h' s' ->
        (exists s2, fstep s' (ETau t) s2) /\ (forall s2, fstep s' (ETau t) s2 -> fpasses t (h' ++ [ETau t]) s2)) ->
      fpasses t h s.

(** ** Who made an operation start over *)
(** A step after which some node's version word is another one. *)
Definition touches (s s' : sys) : Prop :=
  exists n c c', cell_of s n = Some c /\ cell_of s' n = Some c' /\ c_ver c <> c_ver c'.

(** Somebody else's step in the stretch [l] changes a version word. *)
Definition blame (s : sys) (l : list ev) (s' : sys) (t : nat) : Prop :=
  exists l1 e l2 s1 s2, l = l1 ++ e :: l2 /\ steps s l1 s1 /\ step s1 e s2 /\ steps s2 l2 s' /\ ev_thread e <> t /\ touches s1 s2.


Definition ftouches (s s' : fsys) : Prop :=
  exists n c c', fcell s n = Some c /\ fcell s' n = Some c' /\ c_ver c <> c_ver c'.
Definition fblame (s : fsys) (l : list ev) (s' : fsys) (t : nat) : Prop :=
  exists l1 e l2 s1 s2, l = l1 ++ e :: l2 /\ fsteps s l1 s1 /\ fstep s1 e s2 /\ fsteps s2 l2 s' /\ ev_thread e <> t /\ ftouches s1 s2.
