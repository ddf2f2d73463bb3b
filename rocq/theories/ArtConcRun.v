(** * ArtConcRun: running the concurrent machine on a given schedule.

    Used to exhibit executions; [run_exec] says that what it computes is an execution. *)
From Verif Require Import Base BitsModel VecModel ArtNode ArtModel ArtSpec ArtConc.

Inductive act :=
  | ACall (o : op)
  | ARet
  | AStep                       (* next step, reading the memory as it is *)
  | ASteps (n : nat)
  | AFin.                       (* run until about to return *)

Definition shapeb (t : ntype) (n : node) : bool :=
  ntype_eqb (n_type n) t && Nat.eqb (length (n_prefix n)) 8 &&
  match t with
  | Node4 => Nat.eqb (length (n_keys n)) 4 && Nat.eqb (length (n_children n)) 4 && Nat.leb (n_num n) 4
  | Node16 => Nat.eqb (length (n_keys n)) 16 && Nat.eqb (length (n_children n)) 16 && Nat.leb (n_num n) 16
  | Node48 => Nat.eqb (length (n_index n)) 256 && Nat.eqb (length (n_children n)) 48 && forallb (fun i => Nat.leb i 48) (n_index n) && Nat.leb (n_num n) 48
  | Node256 => Nat.eqb (length (n_children n)) 256 && Nat.ltb (n_num n) 256
  | Dummy => true
  end.

Definition nd_of (m : mem) (p : pc) : option node :=
  match reads p with
  | None => Some newNode4
  | Some (a, v) =>
      match nth_error (m_cells m) a with
      | Some c => if shapeb (n_type (c_node c)) (c_node c) then Some (c_node c) else None
      | None => None
      end
  end.

Definition tau1 (s : sys) (t : nat) : option sys :=
  match nd_of (s_mem s) (s_thr s t) with
  | None => None
  | Some nd => match tstep false nd (s_mem s) (s_thr s t) with
               | SGo m' p' => Some (mkSys m' (upd_thr (s_thr s) t p'))
               | SBlock => None
               end
  end.
Fixpoint taus (n : nat) (s : sys) (t : nat) : option sys :=
  match n with O => Some s | S n => match tau1 s t with Some s' => taus n s' t | None => None end end.

(** The number of steps until the goroutine returns. *)
Fixpoint until_ret (fuel : nat) (s : sys) (t : nat) : option nat :=
  match s_thr s t with
  | PRet _ _ => Some 0
  | _ => match fuel with
         | O => None
         | S f => match tau1 s t with Some s' => option_map S (until_ret f s' t) | None => None end
         end
  end.

Definition validb (k : bytes) : bool := forallb (fun b => Nat.ltb b 256) k && N.ltb (N.of_nat (length k)) 4294967296.
Definition valid_opb (o : op) : bool :=
  match o with OPut k v => validb k && validb v | OGet k | ODelete k => validb k end.

Definition run1 (s : sys) (ta : nat * act) : option (list ev * sys) :=
  let '(t, a) := ta in
  match a with
  | ACall o => match s_thr s t with
               | PIdle => if valid_opb o then Some ([ECall t o], mkSys (s_mem s) (upd_thr (s_thr s) t (PStart o))) else None
               | _ => None
               end
  | ARet => match s_thr s t with
            | PRet o r => Some ([ERet t r], mkSys (s_mem s) (upd_thr (s_thr s) t PIdle))
            | _ => None
            end
  | AStep => match tau1 s t with Some s' => Some ([ETau t], s') | None => None end
  | ASteps n => match taus n s t with Some s' => Some (repeat (ETau t) n, s') | None => None end
  | AFin => match until_ret 500 s t with
            | Some n => match taus n s t with Some s' => Some (repeat (ETau t) n, s') | None => None end
            | None => None
            end
  end.
Fixpoint run (s : sys) (l : list (nat * act)) : option (list ev * sys) :=
  match l with
  | [] => Some ([], s)
  | a :: l => match run1 s a with
              | Some (e, s') => match run s' l with Some (es, s'') => Some (e ++ es, s'') | None => None end
              | None => None
              end
  end.

Lemma validb_ok k : validb k = true -> valid k.
Proof.
  unfold validb, valid. rewrite andb_true_iff, forallb_forall, N.ltb_lt. intros (H1 & H2). split; auto.
  apply Forall_forall. intros x Hx. apply Nat.ltb_lt. auto.
Qed.
Lemma valid_opb_ok o : valid_opb o = true -> valid_op o.
Proof. destruct o; cbn; try rewrite andb_true_iff; try (intros (H1 & H2); split); try apply validb_ok; auto. Qed.

Lemma shapeb_ok t n : shapeb t n = true -> shape t n.
Proof.
  unfold shapeb, shape. rewrite !andb_true_iff, Nat.eqb_eq. intros ((H1 & H2) & H3).
  assert (n_type n = t) by (destruct (n_type n), t; auto; discriminate). split; auto. split; auto.
  destruct t; rewrite ?andb_true_iff, ?Nat.eqb_eq, ?Nat.leb_le, ?Nat.ltb_lt in H3; try tauto.
  destruct H3 as (((A & B) & C) & D). repeat split; auto. apply Forall_forall. intros x Hx. rewrite forallb_forall in C. apply Nat.leb_le. auto.
Qed.

Lemma tau1_ok s t s' : tau1 s t = Some s' -> step s (ETau t) s'.
Proof.
  unfold tau1. destruct (nd_of (s_mem s) (s_thr s t)) as [nd|] eqn:E; [|discriminate].
  destruct (tstep false nd (s_mem s) (s_thr s t)) as [|m' p'] eqn:E2; [discriminate|]. intros X. injection X as <-.
  eapply step_tau; [|exact E2]. unfold nd_of in E. unfold reads_ok. destruct (reads (s_thr s t)) as [(a, v)|]; auto.
  unfold sees. destruct (nth_error (m_cells (s_mem s)) a) as [c|]; [|discriminate]. exists c. split; auto.
  destruct (shapeb (n_type (c_node c)) (c_node c)) eqn:E3; [|discriminate]. injection E as <-. split; auto. intros _. now apply shapeb_ok.
Qed.

Lemma taus_ok n : forall s t s' h, exec h s -> taus n s t = Some s' -> exec (h ++ repeat (ETau t) n) s'.
Proof.
  induction n as [|n IH]; intros s t s' h E H; cbn in *.
  - injection H as <-. now rewrite app_nil_r.
  - destruct (tau1 s t) as [s1|] eqn:E1; [|discriminate]. change (ETau t :: repeat (ETau t) n) with ([ETau t] ++ repeat (ETau t) n). rewrite app_assoc.
    eapply IH; [|exact H]. econstructor; eauto. now apply tau1_ok.
Qed.

Lemma run1_ok s a e s' h : exec h s -> run1 s a = Some (e, s') -> exec (h ++ e) s'.
Proof.
  intros E. destruct a as (t, [o| | |n|]); cbn [run1].
  - destruct (s_thr s t) eqn:E1; try discriminate. destruct (valid_opb o) eqn:E2; [|discriminate]. intros X. injection X as <- <-.
    econstructor; eauto. apply step_call; auto. now apply valid_opb_ok.
  - destruct (s_thr s t) eqn:E1; try discriminate. intros X. injection X as <- <-. econstructor; eauto. eapply step_ret; eauto.
  - destruct (tau1 s t) as [s1|] eqn:E1; [|discriminate]. intros X. injection X as <- <-. econstructor; eauto. now apply tau1_ok.
  - destruct (taus n s t) as [s1|] eqn:E1; [|discriminate]. intros X. injection X as <- <-. eapply taus_ok; eauto.
  - destruct (until_ret 500 s t) as [n|]; [|discriminate].
    destruct (taus n s t) as [s1|] eqn:E1; [|discriminate]. intros X. injection X as <- <-. eapply taus_ok; eauto.
Qed.

Lemma run_exec l : forall s h e s', exec h s -> run s l = Some (e, s') -> exec (h ++ e) s'.
Proof.
  induction l as [|a l IH]; intros s h e s' E H; cbn in H.
  - injection H as <- <-. now rewrite app_nil_r.
  - destruct (run1 s a) as [(e1, s1)|] eqn:E1; [|discriminate]. destruct (run s1 l) as [(e2, s2)|] eqn:E2; [|discriminate].
    injection H as <- <-. rewrite app_assoc. eapply IH; [|exact E2]. eapply run1_ok; eauto.
Qed.
