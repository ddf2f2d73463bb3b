(** * ART, one goroutine: properties C01-C10. *)
From Verif Require Import Base BitsModel VecModel ArtNode ArtModel ArtMono ArtSpec ArtTop ArtRep.

(** A runner for the examples: every call gets the same fuel. *)
Fixpoint exec (fuel : nat) (m : mem) (ops : list op) : res (mem * list (option bytes)) :=
  match ops with
  | [] => Ok (m, [])
  | OPut k v :: ops' => m1 <- Put fuel m k v ;; exec fuel m1 ops'
  | OGet k :: ops' => o <- Get fuel m k ;; ' (m', outs) <- exec fuel m ops' ;; Ok (m', o :: outs)
  | ODelete k :: ops' => m1 <- Delete fuel m k ;; exec fuel m1 ops'
  end.
Lemma exec_runs fuel ops : forall m m' outs, exec fuel m ops = Ok (m', outs) -> runs m ops m' outs.
Proof.
  induction ops as [|[k v|k|k] ops IH]; cbn [exec]; intros m m' outs H.
  - apply Ok_inj in H. inversion H. constructor.
  - destruct (Put fuel m k v) as [m1| |] eqn:E; cbn [bind] in H; try discriminate. apply (runs_put m k v m1); auto.
    exists fuel. intros f Hf. exact (leR_Ok _ _ _ (Put_mono _ _ _ _ _ Hf) E).
  - destruct (Get fuel m k) as [o| |] eqn:E; cbn [bind] in H; try discriminate.
    destruct (exec fuel m ops) as [[m1 outs1]| |] eqn:E2; cbn [bind] in H; try discriminate. apply Ok_inj in H. inversion H; subst.
    apply (runs_get m k o); auto. exists fuel. intros f Hf. exact (leR_Ok _ _ _ (Get_mono _ _ _ _ Hf) E).
  - destruct (Delete fuel m k) as [m1| |] eqn:E; cbn [bind] in H; try discriminate. apply (runs_delete m k m1); auto.
    exists fuel. intros f Hf. exact (leR_Ok _ _ _ (Delete_mono _ _ _ _ Hf) E).
Qed.
Definition validb (k : bytes) : bool := forallb (fun b => Nat.ltb b 256) k && N.ltb (N.of_nat (length k)) 4294967296.
Lemma validb_ok k : validb k = true -> valid k.
Proof.
  intros H. apply andb_true_iff in H as (H1 & H2). split; [|now apply N.ltb_lt].
  apply Forall_forall. intros x Hx. rewrite forallb_forall in H1. apply Nat.ltb_lt. auto.
Qed.
Definition valid_opb (o : op) : bool :=
  match o with OPut k v => validb k && validb v | OGet k => validb k | ODelete k => validb k end.
Lemma valid_opsb_ok ops : forallb valid_opb ops = true -> Forall valid_op ops.
Proof.
  intros H. apply Forall_forall. intros o Ho. rewrite forallb_forall in H. specialize (H o Ho).
  destruct o; cbn in *; [apply andb_true_iff in H as (H1 & H2); split|..]; auto using validb_ok.
Qed.

(** A 20-byte path, a key ending inside it, the empty key, node growth past 4 children, removals. *)
Definition p20 : bytes := repeat 7 20.
Definition ex_ops : list op :=
  [OPut (p20 ++ [1; 1]) [101]; OPut (p20 ++ [1; 2]) [102]; OPut (firstn 12 p20) [103]; OPut [] [104];
   OPut (p20 ++ [2]) [105]; OPut (p20 ++ [3]) [106]; OPut (p20 ++ [4]) [107]; OPut (p20 ++ [5]) [108]; OPut (p20 ++ [6]) [109];
   OGet (p20 ++ [1; 2]); OGet (repeat 7 15 ++ [8] ++ repeat 7 4 ++ [1; 2]); ODelete (p20 ++ [1; 1]); OGet (p20 ++ [1; 1]);
   OGet (p20 ++ [1; 2]); ODelete (firstn 12 p20); OGet []; OGet (firstn 12 p20); OPut (p20 ++ [6]) [110]; OGet (p20 ++ [6])].
Definition ex_outs : list (option bytes) := [Some [102]; None; None; Some [102]; Some [104]; None; Some [110]].

(** C01 *)
Theorem C01_map : forall ops m outs, Forall valid_op ops -> runs New ops m outs ->
  outs = answers [] ops /\ forall k, valid k -> returns (fun f => Get f m k) (latest (rev ops) k).
Proof. exact art_map. Qed.
Print Assumptions C01_map.
Example C01_example : Forall valid_op ex_ops /\ (exists m, runs New ex_ops m ex_outs) /\ answers [] ex_ops = ex_outs.
Proof.
  split; [apply valid_opsb_ok; vm_compute; reflexivity|]. split; [|vm_compute; reflexivity].
  destruct (exec 60 New ex_ops) as [[m outs]| |] eqn:E.
  - exists m. assert (EO : outs = ex_outs).
    { assert (X : match exec 60 New ex_ops with Ok (_, o) => o | _ => [] end = ex_outs) by (vm_compute; reflexivity). now rewrite E in X. }
    subst outs. eapply exec_runs; eauto.
  - exfalso. assert (X : match exec 60 New ex_ops with Ok _ => true | _ => false end = true) by (vm_compute; reflexivity). now rewrite E in X.
  - exfalso. assert (X : match exec 60 New ex_ops with Ok _ => true | _ => false end = true) by (vm_compute; reflexivity). now rewrite E in X.
Qed.

(** The tree of the example is reachable: the hypothesis of the theorems below. *)
Lemma New_reachable : reachable New.
Proof. exists [], []. split; constructor. Qed.
Lemma ex_reachable : exists m, runs New ex_ops m ex_outs /\ reachable m.
Proof. destruct C01_example as (V & (m & R) & _). exists m. split; auto. exists ex_ops, ex_outs. auto. Qed.

(** C02 *)
Theorem C02_put : forall m k v, reachable m -> valid k -> valid v ->
  exists m', returns (fun f => Put f m k v) m' /\ reachable m' /\
    returns (fun f => Get f m' k) (Some v) /\
    forall k' o, valid k' -> k' <> k -> returns (fun f => Get f m k') o -> returns (fun f => Get f m' k') o.
Proof. exact (put_top reachable reach_rep reachable_step). Qed.
Print Assumptions C02_put.
Example C02_example : valid (repeat 7 9 ++ [9]) /\ valid [1; 2] /\
  match exec 60 New (ex_ops ++ [OPut (repeat 7 9 ++ [9]) [1; 2]; OGet (repeat 7 9 ++ [9]); OGet (p20 ++ [1; 2])]) with
  | Ok (_, outs) => outs = ex_outs ++ [Some [1; 2]; Some [102]] | _ => False end.
Proof. split; [apply validb_ok; vm_compute; reflexivity|]. split; [apply validb_ok; vm_compute; reflexivity|]. vm_compute. reflexivity. Qed.

(** C03: false.  Storing "hello" and deleting "help" never returns ... *)
Theorem C03_delete_returns_refuted : exists m k, reachable m /\ valid k /\ ~ exists m', returns (fun f => Delete f m k) m'.
Proof.
  pose (hello := [104; 101; 108; 108; 111]). pose (help := [104; 101; 108; 112]). pose (hel := [104; 101; 108]).
  assert (V1 : valid hello) by (apply validb_ok; reflexivity). assert (V2 : valid help) by (apply validb_ok; reflexivity).
  assert (VV : valid [1]) by (apply validb_ok; reflexivity).
  destruct (put_top reachable reach_rep reachable_step New hello [1] New_reachable V1 VV) as (m & R & HR & G & F).
  exists m, help. split; auto. split; auto. intros (m' & (N & X)).
  assert (D : diverges (fun f => Delete f m help)).
  { apply (delete_lone_diverges reachable reach_rep m help hel hello [1]); auto; try discriminate.
    - exists [112]; reflexivity.
    - exists [108; 111]; reflexivity.
    - intros k1 v1 Vk _ HG. destruct (list_eq_dec Nat.eq_dec k1 hello) as [E|E]; auto. exfalso.
      assert (G0 : returns (fun f => Get f New k1) None).
      { destruct (art_map [] New [] (Forall_nil _) (runs_nil New)) as (_ & Z). exact (Z k1 Vk). }
      pose proof (returns_det _ _ _ HG (F k1 None Vk E G0)) as Z. discriminate. }
  specialize (X N (le_n _)). cbn in X. rewrite D in X. discriminate.
Qed.
Print Assumptions C03_delete_returns_refuted.
(** ... and this is not a corner case: it happens for every absent key that shares a
    non-empty prefix with exactly one stored key. *)
Theorem C03_delete_lone_diverges : forall m k q k' v', reachable m -> valid k -> q <> [] -> is_prefix q k -> is_prefix q k' -> k' <> k ->
  valid k' -> returns (fun f => Get f m k') (Some v') ->
  (forall k1 v1, valid k1 -> is_prefix q k1 -> returns (fun f => Get f m k1) (Some v1) -> k1 = k') ->
  diverges (fun f => Delete f m k).
Proof. exact (delete_lone_diverges reachable reach_rep). Qed.
Print Assumptions C03_delete_lone_diverges.
(** What holds: Delete of a stored key returns; a Delete that does not return does not panic
    and concerns an absent key. Missing for the full claim: absent keys. *)
Theorem C03_delete_returns_partial : forall m k v, reachable m -> valid k -> returns (fun f => Get f m k) (Some v) ->
  exists m', returns (fun f => Delete f m k) m'.
Proof. exact (delete_present reachable reach_rep reachable_step). Qed.
Print Assumptions C03_delete_returns_partial.
Example C03_example : match exec 60 New ex_ops with
  | Ok (m, _) => (Get 60 m (p20 ++ [6]), match Delete 60 m (p20 ++ [6]) with Ok _ => true | _ => false end, Delete 60 m (p20 ++ [6; 1]))
  | _ => (Panic, false, Panic) end = (Ok (Some [110]), true, Hang).
Proof. vm_compute. reflexivity. Qed.

(** C04 *)
Theorem C04_delete_effect : forall m k m', reachable m -> valid k -> returns (fun f => Delete f m k) m' ->
  reachable m' /\ returns (fun f => Get f m' k) None /\
  forall k' o, valid k' -> k' <> k -> returns (fun f => Get f m k') o -> returns (fun f => Get f m' k') o.
Proof. exact (delete_effect reachable reach_rep reachable_step). Qed.
Print Assumptions C04_delete_effect.
Theorem C04_delete_never_panics : forall m k fuel, reachable m -> valid k -> Delete fuel m k <> Panic.
Proof. exact (delete_no_panic reachable reach_rep reachable_step). Qed.
Print Assumptions C04_delete_never_panics.
Example C04_example :
  match exec 60 New (ex_ops ++ [ODelete (p20 ++ [2]); OGet (p20 ++ [2]); OGet (p20 ++ [3]); ODelete []; OGet []; OGet (p20 ++ [4])]) with
  | Ok (_, outs) => outs = ex_outs ++ [None; Some [106]; None; Some [107]] | _ => False end.
Proof. vm_compute. reflexivity. Qed.

(** C05: [p] is any path, however long, with nothing stored below it so far; both keys below it are
    found, every near miss on the path is reported absent, and the path survives a merge. *)
Theorem C05_long_paths : forall m p x1 x2 v1 v2, reachable m -> valid (p ++ x1) -> valid (p ++ x2) -> valid v1 -> valid v2 -> x1 <> x2 ->
  (forall x, valid (p ++ x) -> returns (fun f => Get f m (p ++ x)) None) ->
  exists m1 m2 m3, returns (fun f => Put f m (p ++ x1) v1) m1 /\ returns (fun f => Put f m1 (p ++ x2) v2) m2 /\
    returns (fun f => Get f m2 (p ++ x1)) (Some v1) /\ returns (fun f => Get f m2 (p ++ x2)) (Some v2) /\
    (forall p' x, valid (p' ++ x) -> length p' = length p -> p' <> p -> forall o,
        returns (fun f => Get f m (p' ++ x)) o -> returns (fun f => Get f m2 (p' ++ x)) o) /\
    returns (fun f => Delete f m2 (p ++ x1)) m3 /\
    returns (fun f => Get f m3 (p ++ x2)) (Some v2) /\
    (forall x, valid (p ++ x) -> x <> x2 -> returns (fun f => Get f m3 (p ++ x)) None) /\
    (forall p' x, valid (p' ++ x) -> length p' = length p -> p' <> p -> forall o,
        returns (fun f => Get f m (p' ++ x)) o -> returns (fun f => Get f m3 (p' ++ x)) o).
Proof. exact (long_paths reachable reach_rep reachable_step). Qed.
Print Assumptions C05_long_paths.
Example C05_example : valid (repeat 9 300 ++ [1]) /\
  match exec 20 New [OPut (repeat 9 300 ++ [1]) [1]; OPut (repeat 9 300 ++ [2]) [2]; OPut (repeat 9 200 ++ [3]) [3];
    OGet (repeat 9 300 ++ [1]); OGet (repeat 9 299 ++ [8; 1]); OGet (repeat 9 200 ++ [3]); ODelete (repeat 9 200 ++ [3]);
    OGet (repeat 9 300 ++ [2]); OGet (repeat 9 150 ++ [8] ++ repeat 9 149 ++ [2])] with
  | Ok (_, outs) => outs = [Some [1]; None; Some [3]; Some [2]; None] | _ => False end.
Proof. split; [apply validb_ok; vm_compute; reflexivity|vm_compute; reflexivity]. Qed.

(** C06 *)
Theorem C06_prefix_keys : forall m k e v, reachable m -> valid (k ++ e) -> valid v -> e <> [] ->
  (exists m', returns (fun f => Put f m k v) m' /\ returns (fun f => Get f m' k) (Some v) /\
    forall o, returns (fun f => Get f m (k ++ e)) o -> returns (fun f => Get f m' (k ++ e)) o) /\
  (exists m', returns (fun f => Put f m (k ++ e) v) m' /\ returns (fun f => Get f m' (k ++ e)) (Some v) /\
    forall o, returns (fun f => Get f m k) o -> returns (fun f => Get f m' k) o) /\
  (forall w, returns (fun f => Get f m k) (Some w) ->
    exists m', returns (fun f => Delete f m k) m' /\ returns (fun f => Get f m' k) None /\
    forall o, returns (fun f => Get f m (k ++ e)) o -> returns (fun f => Get f m' (k ++ e)) o) /\
  (forall w, returns (fun f => Get f m (k ++ e)) (Some w) ->
    exists m', returns (fun f => Delete f m (k ++ e)) m' /\ returns (fun f => Get f m' (k ++ e)) None /\
    forall o, returns (fun f => Get f m k) o -> returns (fun f => Get f m' k) o).
Proof. exact (prefix_keys reachable reach_rep reachable_step). Qed.
Print Assumptions C06_prefix_keys.
Example C06_example :
  match exec 20 New [OPut [1; 2; 3] [3]; OPut [1] [1]; OPut [] [0]; OPut [1; 2] [2]; OGet []; OGet [1]; OGet [1; 2]; OGet [1; 2; 3];
    ODelete [1]; OGet []; OGet [1]; OGet [1; 2]; ODelete [1; 2; 3]; OGet [1; 2]; ODelete []; OGet []; OGet [1; 2]] with
  | Ok (_, outs) => outs = [Some [0]; Some [1]; Some [2]; Some [3]; Some [0]; None; Some [2]; Some [2]; None; Some [2]] | _ => False end.
Proof. vm_compute. reflexivity. Qed.

(** C07 *)
Theorem C07_node_kinds : forall n f, built n f ->
  (forall b, b < 256 -> exists slot pos, findChild n b = Ok (f b, slot, pos)) /\
  (forall b p, b < 256 -> f b = None -> exists n', add_child n b p = Ok n') /\
  (forall b p, b < 256 -> f b <> None -> exists n', replace_child n b p = Ok n') /\
  (forall b, b < 256 -> f b <> None -> exists n', drop_child n b = Ok n') /\
  n_num n = length (filter (fun b => present (f b)) (seq 0 256)) mod 256.
Proof. exact node_map. Qed.
Print Assumptions C07_node_kinds.
(** A node that went through all four kinds in both directions, once holding 256 children. *)
Definition adds (bs : list nat) (n : res node) : res node := fold_left (fun n b => x <- n ;; add_child x b (PNode (b + 1000))) bs n.
Definition drops (bs : list nat) (n : res node) : res node := fold_left (fun n b => x <- n ;; drop_child x b) bs n.
Lemma built_adds : forall bs n f n', NoDup bs -> Forall (fun b => b < 256 /\ f b = None) bs -> built n f -> adds bs (Ok n) = Ok n' ->
  exists f', built n' f'.
Proof.
  induction bs as [|b bs IH]; intros n f n' ND FA B E; cbn [adds fold_left] in E.
  - apply Ok_inj in E. subst. eauto.
  - inversion FA as [|? ? (Hb & Hf) FA']; subst. inversion ND; subst. cbn [bind] in E.
    destruct (add_child n b (PNode (b + 1000))) as [n1| |] eqn:E1.
    + apply (IH n1 (setf f b (Some (PNode (b + 1000)))) n'); auto.
      * rewrite Forall_forall in *. intros x Hx. destruct (FA' x Hx). split; auto. unfold setf. destruct (Nat.eqb_spec x b); [subst; contradiction|auto].
      * eapply built_add; eauto.
    + exfalso. clear - E. change (adds bs Panic = Ok n') in E. revert E. clear. unfold adds. induction bs; cbn; auto; discriminate.
    + exfalso. clear - E. change (adds bs Hang = Ok n') in E. revert E. clear. unfold adds. induction bs; cbn; auto; discriminate.
Qed.
Example C07_example :
  (exists n f, built n f /\ adds (seq 0 256) (Ok newNode4) = Ok n /\ n_type n = Node256 /\ n_num n = 0) /\
  match drops (seq 0 255) (adds (seq 0 256) (Ok newNode4)) with
  | Ok n => n_type n = Node4 /\ child n 255 = Some (PNode 1255) /\ child n 254 = None | _ => False end.
Proof.
  split.
  - destruct (adds (seq 0 256) (Ok newNode4)) as [n| |] eqn:E.
    + destruct (built_adds (seq 0 256) newNode4 (fun _ => None) n) as (f & B); auto.
      * apply seq_NoDup.
      * apply Forall_forall. intros x Hx. apply in_seq in Hx. split; [lia|reflexivity].
      * constructor.
      * assert (X : match adds (seq 0 256) (Ok newNode4) with Ok x => (n_type x, n_num x) | _ => (Dummy, 1) end = (Node256, 0)) by (vm_compute; reflexivity).
        rewrite E in X. exists n, f. injection X as X1 X2. auto.
    + exfalso. assert (X : match adds (seq 0 256) (Ok newNode4) with Ok _ => true | _ => false end = true) by (vm_compute; reflexivity). now rewrite E in X.
    + exfalso. assert (X : match adds (seq 0 256) (Ok newNode4) with Ok _ => true | _ => false end = true) by (vm_compute; reflexivity). now rewrite E in X.
  - vm_compute. auto.
Qed.

(** C08 *)
Theorem C08_leaf : forall k v, (N.of_nat (length k) < 4294967296)%N -> (N.of_nat (length v) < 4294967296)%N ->
  leaf_key (newLeaf k v) = Ok k /\ leaf_value (newLeaf k v) = Ok v /\
  (forall k', exists b, leaf_match (newLeaf k v) k' = Ok b /\ (b = true <-> k' = k)).
Proof. exact leaf_top. Qed.
Print Assumptions C08_leaf.
Example C08_example : leaf_value (newLeaf (repeat 3 300) [9; 8; 7]) = Ok [9; 8; 7] /\ leaf_key (newLeaf [] []) = Ok [].
Proof. vm_compute. auto. Qed.

(** C09 *)
Theorem C09_occupancy : forall m a n, reachable m -> in_tree m a -> node_at m a n ->
  min_children (n_type n) <= children_count n <= max_children (n_type n) /\
  (m_root m <> PNode a -> 2 <= entry_count n) /\
  n_num n = children_count n mod 256.
Proof. exact (occupancy reachable reach_rep). Qed.
Print Assumptions C09_occupancy.
Theorem C09_empty_tree : forall m, reachable m -> (forall k, valid k -> returns (fun f => Get f m k) None) ->
  exists a n, m_root m = PNode a /\ node_at m a n /\ n_type n = Node4 /\ entry_count n = 0 /\ (forall a', in_tree m a' -> a' = a).
Proof. exact (empty_tree reachable reach_rep reachable_step). Qed.
Print Assumptions C09_empty_tree.
(** After 20 keys below one byte were stored and deleted again, the root is a childless node4. *)
Example C09_example :
  let ks := map (fun b => [5; b]) (seq 0 20) in
  match exec 20 New (map (fun k => OPut k [1]) ks ++ map ODelete ks) with
  | Ok (m, _) => match m_root m with PNode a => match nth_error (m_cells m) a with
      | Some c => (n_type (c_node c), entry_count (c_node c), existsb (fun c => ntype_eqb (n_type (c_node c)) Node48) (m_cells m)) | None => (Dummy, 9, false) end
      | _ => (Dummy, 9, false) end
  | _ => (Dummy, 9, false) end = (Node4, 0, true).
Proof. vm_compute. reflexivity. Qed.

(** C10: the fuel of search, insert and remove is the number of inner nodes they may visit;
    running out of it is [Hang].  ([ff] bounds the separate leftmost walk of fullKey.) *)
Theorem C10_depth : forall m k, reachable m -> valid k ->
  (exists o, Get (length k + 1) m k = Ok o) /\
  (forall v, valid v -> forall root pv, m_root m = PNode root -> get_ver m 0 = Ok pv ->
     exists ff m', insert (length k + 1) ff m k v 0 0 pv LRoot root = Ok (m', true)) /\
  (forall root pv, m_root m = PNode root -> get_ver m 0 = Ok pv ->
     exists m' ok, remove (length k + 1) m k 0 0 pv LRoot root = Ok (m', ok)).
Proof. exact (depth_bound reachable reach_rep reachable_step). Qed.
Print Assumptions C10_depth.
(** The bound is reached: [1;2] visits the root and the nodes of [1] and [1;2]. *)
Example C10_example :
  match exec 20 New [OPut [] [0]; OPut [1] [1]; OPut [1; 2] [2]; OPut [1; 2; 3] [3]] with
  | Ok (m, _) => (Get 3 m [1; 2], Get 2 m [1; 2]) | _ => (Panic, Panic) end = (Ok (Some [2]), Hang).
Proof. vm_compute. reflexivity. Qed.
