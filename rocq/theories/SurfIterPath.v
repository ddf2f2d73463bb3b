(** * Positions in the trie, and the keys before and after them. *)
From Coq Require Import Sorted.
From Verif Require Import Base BitsModel BitsFacts VecModel VecProofs VecProofs2 SurfModel SurfTrie SurfSuffix SurfBuild SurfDense SurfEnc SurfBuildTop SurfGet SurfGet2 SurfWalk.
Ltac Zify.zify_post_hook ::= Z.div_mod_to_equations.

(** A node of a level, with the nodes before it, and one of its items. *)
Record frame := mkF { f_P : list tnode; f_n : tnode; f_A : list item; f_it : item; f_B : list item }.
Definition kids (g : frame) : list tnode := map mkchild (filter hasc (flat_map items (f_P g) ++ f_A g)).

Fixpoint aft (r : list frame) : list kv :=
  match r with [] => [] | f :: r => concat (map i_grp (f_B f)) ++ aft r end.
Fixpoint bef (r : list frame) : list kv :=
  match r with [] => [] | f :: r => bef r ++ concat (map i_grp (f_A f)) end.

Section Path.
Variables (NSS : list (list tnode)) (kvs : list kv).
Hypothesis LK : linked NSS.
Hypothesis WF : Forall nwf (concat NSS).
Hypothesis RT : nth_error NSS 0 = Some [mknode kvs 0].
Notation at_node := (at_node NSS).
Notation nid := (nid NSS).

(** [n] is the node the path [r] (deepest frame first) leads to. *)
Definition topn (r : list frame) (P : list tnode) (n : tnode) : Prop :=
  match r with
  | [] => P = [] /\ n = mknode kvs 0
  | g :: _ => hasc (f_it g) = true /\ n = mkchild (f_it g) /\ P = kids g
  end.
Fixpoint pok (F : list frame) : Prop :=
  match F with
  | [] => True
  | f :: r => pok r /\ topn r (f_P f) (f_n f) /\ items (f_n f) = f_A f ++ f_it f :: f_B f
  end.

Lemma top_at r : pok r -> forall P n, topn r P n -> exists Q, at_node (length r) P n Q.
Proof.
  induction r as [|g r IH]; intros PK P n T.
  - destruct T as [-> ->]. exists []. exact RT.
  - destruct T as (HC & -> & ->). destruct PK as (PK & T & EI). destruct (IH PK _ _ T) as (Q & AT).
    destruct (child_at NSS LK (ex_intro _ _ RT) _ _ _ _ _ _ _ AT EI HC) as (P' & Q' & AT' & _ & EP). exists Q'.
    cbn [length]. unfold kids. rewrite <- EP. exact AT'.
Qed.

Lemma top_wf r P n : pok r -> topn r P n -> nwf n.
Proof.
  intros PK T. destruct (top_at r PK P n T) as (Q & AT). rewrite Forall_forall in WF. apply WF. eapply at_in; eauto.
Qed.

Lemma top_nid r g P n : pok (g :: r) -> topn (g :: r) P n ->
  nid (S (length r)) P = 1 + length (filter hasc (flat_map items (concat (firstn (length r) NSS) ++ f_P g) ++ f_A g)).
Proof.
  intros (PK & T & EI) (HC & -> & ->). destruct (top_at r PK _ _ T) as (Q & AT).
  destruct (child_at NSS LK (ex_intro _ _ RT) _ _ _ _ _ _ _ AT EI HC) as (P' & Q' & AT' & E & EP). unfold kids. now rewrite <- EP.
Qed.

(** Only the root can have a single item. *)
Lemma top_two r P n : pok r -> topn r P n -> r <> [] -> 2 <= length (items n).
Proof.
  intros PK T NE. destruct r as [|g r]; [congruence|]. pose proof (top_wf _ _ _ PK T) as W. destruct T as (HC & -> & _).
  apply items_two; auto. unfold mkchild, mknode. cbn [tn_kvs]. unfold hasc in HC. apply Nat.ltb_lt in HC. lia.
Qed.

Lemma bef_aft r : pok r -> forall P n, topn r P n -> bef r ++ tn_kvs n ++ aft r = kvs.
Proof.
  induction r as [|g r IH]; intros PK P n T.
  - destruct T as [_ ->]. cbn. apply app_nil_r.
  - destruct T as (HC & -> & _). destruct PK as (PK & T & EI). rewrite <- (IH PK _ _ T). cbn [bef aft].
    rewrite <- !app_assoc. f_equal. rewrite <- (items_kvs (tn_d (f_n g)) (tn_kvs (f_n g))). fold (items (f_n g)). rewrite EI, map_app, concat_app. cbn [map concat].
    rewrite <- !app_assoc. reflexivity.
Qed.

Lemma bef_aft_it f r : pok (f :: r) -> bef (f :: r) ++ i_grp (f_it f) ++ aft (f :: r) = kvs.
Proof.
  intros (PK & T & EI). rewrite <- (bef_aft r PK _ _ T). cbn [bef aft]. rewrite <- !app_assoc. f_equal.
  rewrite <- (items_kvs (tn_d (f_n f)) (tn_kvs (f_n f))). fold (items (f_n f)). rewrite EI, map_app, concat_app. cbn [map concat].
  rewrite <- !app_assoc. reflexivity.
Qed.

Definition flab (f : frame) : byte := i_label (f_it f).

Lemma frame_in f r : pok (f :: r) -> In (f_it f) (items (f_n f)).
Proof. intros (_ & _ & ->). apply in_or_app. right. now left. Qed.

Lemma frame_lab f r : pok (f :: r) -> flab f < 256.
Proof. intros PK. apply (label_byte (f_n f)); [|eapply frame_in; eauto]. destruct PK as (PK & T & _). eapply top_wf; eauto. Qed.

(** Bytes: the path of a node is that of its parent's item. *)
Lemma top_npath r g P n : pok (g :: r) -> topn (g :: r) P n -> npath n = ndpath (f_n g) ++ [flab g] /\ tn_pd n = tn_d (f_n g) + 1.
Proof.
  intros PK (HC & -> & _). pose proof (frame_in g r PK) as I. destruct PK as (PK & T & EI). pose proof (top_wf _ _ _ PK T) as W.
  split; [now apply child_npath|]. rewrite (child_pd (f_n g)) by auto. lia.
Qed.
Lemma root_npath P n : topn [] P n -> npath n = [] /\ tn_pd n = 0.
Proof. intros [_ ->]. split; reflexivity. Qed.

Lemma path_prefix r : pok r -> forall P n, topn r P n -> forall g, In g r -> is_prefix (ndpath (f_n g) ++ [flab g]) (npath n).
Proof.
  induction r as [|f r IH]; intros PK P n T g Hg; [destruct Hg|]. destruct (top_npath r f P n PK T) as [E _]. rewrite E.
  destruct Hg as [<-|Hg]; [apply is_prefix_refl|]. destruct PK as (PK & T' & EI).
  eapply is_prefix_trans; [apply (IH PK _ _ T' g Hg)|]. pose proof (top_wf _ _ _ PK T') as W.
  eapply is_prefix_trans; [apply (npath_ndpath _ W)|]. now exists [flab f].
Qed.
End Path.
