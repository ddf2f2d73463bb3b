(** * ART, the ends of a node: property C57. *)
From Verif Require Import Base BitsModel ArtNode ArtModel ArtSpec ArtTop ArtRange ArtRangeProofs Props_Art.

(** firstChild is the child of the least byte and lastChild that of the greatest. *)
Definition ends_right (n : node) : Prop :=
  (exists b p, firstChild n = Ok (Some p) /\ child n b = Some p /\ forall b', b' < b -> child n b' = None) /\
  (exists b p, lastChild n = Ok (Some p) /\ child n b = Some p /\ forall b', b < b' -> b' < 256 -> child n b' = None).

(** False: the children of the two smaller kinds are in the order of their arrival. *)
Theorem C57_ends_refuted : exists m a n, reachable m /\ in_tree m a /\ node_at m a n /\ 0 < children_count n /\
  (forall p, firstChild n = Ok (Some p) -> exists b b', b' < b /\ child n b = Some p /\ child n b' <> None /\ child n b' <> Some p) /\
  (forall p, lastChild n = Ok (Some p) -> exists b b', b < b' < 256 /\ child n b = Some p /\ child n b' <> None /\ child n b' <> Some p).
Proof.
  set (ops := [OPut [5; 1] [7]; OPut [3; 1] [8]]).
  assert (X : match exec 20 New ops with Ok (m, _) => match m_root m with PNode a => match nth_error (m_cells m) a with
    | Some c => let n := c_node c in (firstChild n, lastChild n, child n 5, child n 3, Nat.ltb 0 (children_count n)) = 
        (Ok (Some (PLeaf (newLeaf [5; 1] [7]))), Ok (Some (PLeaf (newLeaf [3; 1] [8]))), Some (PLeaf (newLeaf [5; 1] [7])), Some (PLeaf (newLeaf [3; 1] [8])), true)
    | None => False end | _ => False end | _ => False end) by (vm_compute; reflexivity).
  destruct (exec 20 New ops) as [[m outs]| |] eqn:E; try contradiction. destruct (m_root m) as [|a] eqn:Er; try contradiction.
  destruct (nth_error (m_cells m) a) as [[v n]|] eqn:En; try contradiction. cbn [c_node] in X. cbn zeta in X.
  injection X as X1 X2 X3 X4 X5.
  assert (NE : newLeaf [5; 1] [7] <> newLeaf [3; 1] [8]) by (vm_compute; discriminate).
  exists m, a, n. split; [|split; [now constructor|split; [now exists v|split; [now apply Nat.ltb_lt|split]]]].
  - exists ops, outs. split; [|eapply exec_runs; exact E]. repeat constructor; apply validb_ok; reflexivity.
  - intros p Hp. rewrite X1 in Hp. exists 5, 3. assert (p = PLeaf (newLeaf [5; 1] [7])) by congruence. subst p. rewrite X3, X4. split; [lia|]. split; [auto|]. split; congruence.
  - intros p Hp. rewrite X2 in Hp. exists 3, 5. assert (p = PLeaf (newLeaf [3; 1] [8])) by congruence. subst p. rewrite X3, X4. split; [lia|]. split; [auto|]. split; congruence.
Qed.
Print Assumptions C57_ends_refuted.

(** True of the two larger kinds ... *)
Theorem C57_ends_partial : forall m a n, reachable m -> in_tree m a -> node_at m a n -> n_type n = Node48 \/ n_type n = Node256 -> ends_right n.
Proof.
  intros m a n R T A K. destruct (ends_tree m a n R T A) as [X _].
  destruct X as ((b & p & X1 & X2 & X3 & X4) & (b' & p' & Y1 & Y2 & Y3 & Y4)).
  - destruct (C09_occupancy m a n R T A) as ((Z & _) & _). destruct K as [K|K]; rewrite K in Z; unfold min_children in Z; lia.
  - split; [exists b, p|exists b', p']; auto.
Qed.
Print Assumptions C57_ends_partial.
(** ... and in every node that has a child both return one. Without a child lastChild panics. *)
Theorem C57_ends_are_children : forall m a n, reachable m -> in_tree m a -> node_at m a n ->
  (0 < children_count n ->
    (exists b p, b < 256 /\ child n b = Some p /\ firstChild n = Ok (Some p)) /\
    (exists b p, b < 256 /\ child n b = Some p /\ lastChild n = Ok (Some p))) /\
  (children_count n = 0 -> lastChild n = Panic).
Proof.
  intros m a n R T A. destruct (ends_tree m a n R T A) as [X Y]. split; [|exact Y]. intros P.
  destruct (X P) as ((b & p & X1 & X2 & X3 & _) & (b' & p' & Y1 & Y2 & Y3 & _)). split; [exists b, p|exists b', p']; auto.
Qed.
Print Assumptions C57_ends_are_children.

(** A tree whose root is a node48 filled in descending order, and the empty tree. *)
Example C57_example : 
  (exists m a n, reachable m /\ in_tree m a /\ node_at m a n /\ n_type n = Node48 /\ firstChild n = Ok (child n 1) /\ lastChild n = Ok (child n 20)) /\
  (exists a n, in_tree New a /\ node_at New a n /\ children_count n = 0 /\ firstChild n = Ok None).
Proof.
  split.
  - set (ops := map (fun b => OPut [b; 7] [b]) (rev (seq 1 20))).
    assert (X : match exec 20 New ops with Ok (m, _) => match m_root m with PNode a => match nth_error (m_cells m) a with
      | Some c => let n := c_node c in (n_type n, firstChild n, lastChild n) = (Node48, Ok (child n 1), Ok (child n 20))
      | None => False end | _ => False end | _ => False end) by (vm_compute; reflexivity).
    destruct (exec 20 New ops) as [[m outs]| |] eqn:E; try contradiction. destruct (m_root m) as [|a] eqn:Er; try contradiction.
    destruct (nth_error (m_cells m) a) as [[v n]|] eqn:En; try contradiction. cbn [c_node] in X. cbn zeta in X.
    injection X as X1 X2 X3. exists m, a, n. split; [|split; [now constructor|split; [now exists v|auto]]].
    exists ops, outs. split; [|eapply exec_runs; exact E]. apply valid_opsb_ok. vm_compute. reflexivity.
  - assert (X : match m_root New with PNode a => match nth_error (m_cells New) a with Some c => (children_count (c_node c), firstChild (c_node c)) = (0, Ok None) | None => False end | _ => False end) by (vm_compute; reflexivity).
    destruct (m_root New) as [|a] eqn:Er; try contradiction. destruct (nth_error (m_cells New) a) as [[v n]|] eqn:En; try contradiction. cbn [c_node] in X. injection X as X1 X2.
    exists a, n. split; [now constructor|]. split; [now exists v|]. auto.
Qed.
