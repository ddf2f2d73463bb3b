(** * ArtFineSpec: the notions of ArtConcSpec.v for the machine that reads and writes one
    field at a time. *)
From Verif Require Import Base BitsModel VecModel ArtNode ArtModel ArtSpec ArtConc ArtConcSpec ArtFine.

Definition fcell (s : fsys) (n : nat) : option cell := nth_error (m_cells (fs_mem s)) n.
(** Bit 1 of the node's version word. *)
Definition flockbit (s : fsys) (n : nat) : bool :=
  match fcell s n with Some c => locked (c_ver c) | None => false end.

(** Executions that also record which goroutine set each lock bit. *)
Inductive foexec : list ev -> fsys -> (nat -> option nat) -> Prop :=
  | foexec_nil : foexec [] finit (fun _ => None)
  | foexec_step h s ow e s' ow' : foexec h s ow -> fstep s e s' ->
      (forall n, ow' n = match flockbit s n, flockbit s' n with
                         | false, true => Some (ev_thread e)
                         | true, false => None
                         | _, _ => ow n
                         end) ->
      foexec (h ++ [e]) s' ow'.

(** Stretches of an execution. *)
Inductive fsteps : fsys -> list ev -> fsys -> Prop :=
  | fsteps_nil s : fsteps s [] s
  | fsteps_cons s e s1 l s2 : fstep s e s1 -> fsteps s1 l s2 -> fsteps s (e :: l) s2.

(** The node whose lock bit the goroutine polls. *)
Definition fpolls (x : ft) : option nat := match x with TAt p => polls p | _ => None end.
Definition fwaiting (s : fsys) (t n : nat) : Prop := fpolls (fs_thr s t) = Some n /\ flockbit s n = true.
Definition fable (s : fsys) (t : nat) : Prop := exists e s', fstep s e s' /\ ev_thread e = t.
Definition fwaits_for (s : fsys) (ow : nat -> option nat) (t u : nat) : Prop :=
  exists n, fwaiting s t n /\ ow n = Some u.

(** Running one goroutine alone. *)
Inductive ffinishes (t : nat) : fsys -> Prop :=
  | ffin_ret s o r : fs_thr s t = TAt (PRet o r) -> ffinishes t s
  | ffin_step s : (exists s', fstep s (ETau t) s') -> (forall s', fstep s (ETau t) s' -> ffinishes t s') -> ffinishes t s.

(** [running h t o] : after the events of [h], goroutine [t] has called [o] and the call
    has not returned. *)
Definition running (h : list ev) (t : nat) (o : op) : Prop :=
  exists h1 h2, h = h1 ++ ECall t o :: h2 /\ forall x, ~ In (ERet t x) h2.
(** At no moment are a Put and a Delete running. *)
Definition apart (h : list ev) : Prop := forall h1 h2 t k v u k', h = h1 ++ h2 ->
  running h1 t (OPut k v) -> running h1 u (ODelete k') -> False.
