(** * ArtFineRun: running the field-by-field machine on a given schedule.

    Used to exhibit executions; [frun_exec] says that what it computes is an execution. *)
From Verif Require Import Base BitsModel VecModel ArtNode ArtModel ArtSpec ArtConc ArtConcRun ArtFine.

Definition ftau1 (s : fsys) (t : nat) : option fsys :=
  match fgo false (fs_mem s) (fs_thr s t) with
  | Some (m', x') => Some (mkFS m' (fupd (fs_thr s) t x'))
  | None => None
  end.
Fixpoint ftaus (n : nat) (s : fsys) (t : nat) : option fsys :=
  match n with O => Some s | S n => match ftau1 s t with Some s' => ftaus n s' t | None => None end end.
(** The number of steps until the goroutine returns. *)
Fixpoint funtil_ret (fuel : nat) (s : fsys) (t : nat) : option nat :=
  match fs_thr s t with
  | TAt (PRet _ _) => Some 0
  | _ => match fuel with
         | O => None
         | S f => match ftau1 s t with Some s' => option_map S (funtil_ret f s' t) | None => None end
         end
  end.
Definition frun1 (s : fsys) (ta : nat * act) : option (list ev * fsys) :=
  let '(t, a) := ta in
  match a with
  | ACall o => match fs_thr s t with
               | TAt PIdle => if valid_opb o then Some ([ECall t o], mkFS (fs_mem s) (fupd (fs_thr s) t (TAt (PStart o)))) else None
               | _ => None
               end
  | ARet => match fs_thr s t with
            | TAt (PRet o r) => Some ([ERet t r], mkFS (fs_mem s) (fupd (fs_thr s) t (TAt PIdle)))
            | _ => None
            end
  | AStep => match ftau1 s t with Some s' => Some ([ETau t], s') | None => None end
  | ASteps n => match ftaus n s t with Some s' => Some (repeat (ETau t) n, s') | None => None end
  | AFin => match funtil_ret 2000 s t with
            | Some n => match ftaus n s t with Some s' => Some (repeat (ETau t) n, s') | None => None end
            | None => None
            end
  end.
Fixpoint frun (s : fsys) (l : list (nat * act)) : option (list ev * fsys) :=
  match l with
  | [] => Some ([], s)
  | a :: l => match frun1 s a with
              | Some (e, s') => match frun s' l with Some (es, s'') => Some (e ++ es, s'') | None => None end
              | None => None
              end
  end.

Lemma ftau1_ok s t s' : ftau1 s t = Some s' -> fstep s (ETau t) s'.
Proof.
  unfold ftau1. destruct (fgo false (fs_mem s) (fs_thr s t)) as [(m', x')|] eqn:E; [|discriminate]. intros X. injection X as <-.
  eapply fst_tau; exact E.
Qed.
Lemma ftaus_ok n : forall s t s' h, fexec h s -> ftaus n s t = Some s' -> fexec (h ++ repeat (ETau t) n) s'.
Proof.
  induction n as [|n IH]; intros s t s' h E H; cbn in *.
  - injection H as <-. now rewrite app_nil_r.
  - destruct (ftau1 s t) as [s1|] eqn:E1; [|discriminate]. change (ETau t :: repeat (ETau t) n) with ([ETau t] ++ repeat (ETau t) n). rewrite app_assoc.
    eapply IH; [|exact H]. econstructor; eauto. now apply ftau1_ok.
Qed.
Lemma frun1_ok s a e s' h : fexec h s -> frun1 s a = Some (e, s') -> fexec (h ++ e) s'.
Proof.
  intros E. destruct a as (t, [o| | |n|]); cbn [frun1].
  - destruct (fs_thr s t) as [[]| | |] eqn:E1; try discriminate. destruct (valid_opb o) eqn:E2; [|discriminate]. intros X. injection X as <- <-.
    econstructor; eauto. apply fst_call; auto. now apply valid_opb_ok.
  - destruct (fs_thr s t) as [[]| | |] eqn:E1; try discriminate. intros X. injection X as <- <-. econstructor; eauto. eapply fst_ret; eauto.
  - destruct (ftau1 s t) as [s1|] eqn:E1; [|discriminate]. intros X. injection X as <- <-. econstructor; eauto. now apply ftau1_ok.
  - destruct (ftaus n s t) as [s1|] eqn:E1; [|discriminate]. intros X. injection X as <- <-. eapply ftaus_ok; eauto.
  - destruct (funtil_ret 2000 s t) as [n|]; [|discriminate].
    destruct (ftaus n s t) as [s1|] eqn:E1; [|discriminate]. intros X. injection X as <- <-. eapply ftaus_ok; eauto.
Qed.
Lemma frun_exec l : forall s h e s', fexec h s -> frun s l = Some (e, s') -> fexec (h ++ e) s'.
Proof.
  induction l as [|a l IH]; intros s h e s' E H; cbn in H.
  - injection H as <- <-. now rewrite app_nil_r.
  - destruct (frun1 s a) as [(e1, s1)|] eqn:E1; [|discriminate]. destruct (frun s1 l) as [(e2, s2)|] eqn:E2; [|discriminate].
    injection H as <- <-. rewrite app_assoc. eapply IH; [|exact E2]. eapply frun1_ok; eauto.
Qed.
