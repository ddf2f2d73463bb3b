(** * ArtConcSpec: linearizability, stated on histories of calls and returns only.

    The sequential map is [latest] (ArtSpec.v), a function of the list of operations that
    have taken effect.  A history is linearizable when each operation can be given one
    instant, between its call and its return, at which it takes effect on that map and
    at which its answer is fixed. *)
From Verif Require Import Base BitsModel VecModel ArtNode ArtModel ArtSpec ArtConc.

(** A goroutine, as far as the sequential map can tell: between calls; called, not yet
    taken effect; taken effect with answer [r], not yet returned. *)
Inductive sstat := SIdle | SPend (o : op) | SDone (o : op) (r : option bytes).

(** What a sequential map answers after the operations [L], latest first.  Put and
    Delete return nothing. *)
Definition answer (L : list op) (o : op) : option bytes :=
  match o with OGet k => latest L k | _ => None end.

Definition changed (st st' : nat -> sstat) (t : nat) (x : sstat) : Prop :=
  st' t = x /\ forall u, u <> t -> st' u = st u.

Inductive lin : list ev -> list op -> (nat -> sstat) -> Prop :=
  | lin_init st : (forall t, st t = SIdle) -> lin [] [] st
  | lin_call h L st t o st' : lin h L st -> st t = SIdle -> changed st st' t (SPend o) ->
      lin (h ++ [ECall t o]) L st'
  | lin_ret h L st t o r st' : lin h L st -> st t = SDone o r -> changed st st' t SIdle ->
      lin (h ++ [ERet t r]) L st'
  | lin_tau h L st t : lin h L st -> lin (h ++ [ETau t]) L st
  | lin_op h L st t o st' : lin h L st -> st t = SPend o -> changed st st' t (SDone o (answer L o)) ->
      lin h (o :: L) st'.

Definition linearizable (h : list ev) : Prop := exists L st, lin h L st.

(** ** Locks, as the version words show them *)
Definition ev_thread (e : ev) : nat := match e with ECall t _ | ERet t _ | ETau t => t end.
Definition cell_of (s : sys) (n : nat) : option cell := nth_error (m_cells (s_mem s)) n.
(** Bit 1 of the node's version word. *)
Definition lockbit (s : sys) (n : nat) : bool :=
  match cell_of s n with Some c => locked (c_ver c) | None => false end.

(** Executions that also record which goroutine set each lock bit. *)
Inductive oexec : list ev -> sys -> (nat -> option nat) -> Prop :=
  | oexec_nil : oexec [] init (fun _ => None)
  | oexec_step h s ow e s' ow' : oexec h s ow -> step s e s' ->
      (forall n, ow' n = match lockbit s n, lockbit s' n with
                         | false, true => Some (ev_thread e)
                         | true, false => None
                         | _, _ => ow n
                         end) ->
      oexec (h ++ [e]) s' ow'.

(** The node whose lock bit the goroutine polls (lock.go:65-77), if it is about to. *)
Definition polls (p : pc) : option nat :=
  match p with
  | PStart _ | PRoot _ _ => Some 0
  | PLock _ f => Some (f_cur f)
  | FNext _ _ _ y => Some y
  | CWait _ _ _ _ _ c => Some c
  | _ => None
  end.
Definition waiting (s : sys) (t n : nat) : Prop := polls (s_thr s t) = Some n /\ lockbit s n = true.
Definition able (s : sys) (t : nat) : Prop := exists e s', step s e s' /\ ev_thread e = t.
(** Goroutine [t] waits for a lock that goroutine [u] has set. *)
Definition waits_for (s : sys) (ow : nat -> option nat) (t u : nat) : Prop :=
  exists n, waiting s t n /\ ow n = Some u.

(** ** Running one goroutine alone *)
Inductive finishes (t : nat) : sys -> Prop :=
  | fin_ret s o r : s_thr s t = PRet o r -> finishes t s
  | fin_step s : (exists s', step s (ETau t) s') -> (forall s', step s (ETau t) s' -> finishes t s') -> finishes t s.

(** ** Stretches of an execution *)
Inductive steps : sys -> list ev -> sys -> Prop :=
  | steps_nil s : steps s [] s
  | steps_cons s e s1 l s2 : step s e s1 -> steps s1 l s2 -> steps s (e :: l) s2.

(** The nodes a lookup can come to from the root. *)
Inductive reach (m : mem) : nat -> Prop :=
  | reach_root r : m_root m = PNode r -> reach m r
  | reach_child n c b x slot pos : reach m n -> nth_error (m_cells m) n = Some c -> b < 256 ->
      findChild (c_node c) b = Ok (Some (PNode x), slot, pos) -> reach m x.
