(** * The tree after concurrent use: property C49. *)
From Verif Require Import Base BitsModel VecModel ArtNode ArtModel ArtSpec ArtMono ArtDelSpec ArtTop ArtDelExact ArtConc ArtConcSpec ArtConcRun
  ArtFine ArtFineSpec ArtFineRun ArtFineProofs ArtSettledSpec ArtSettled Props_Fine.

(** ** C49. Whenever no node is locked, the tree answers every later sequence of calls like a
    map: the one that some order of the operations, consistent with the calls and returns so
    far, leads to. Goroutines between calls have nothing outstanding in that order, and a Put
    that panicked has not taken effect. *)
Theorem C49_map : forall h s, fexec h s -> quiet s -> exists L st, lin h L st /\
  (forall t, fs_thr s t = TAt PIdle -> st t = SIdle) /\ (forall t o, fs_thr s t = TAt (PCrash o) -> st t = SPend o) /\
  forall ops m outs, Forall valid_op ops -> runs (fs_mem s) ops m outs ->
    outs = ArtSpec.answers L ops /\ forall k, valid k -> returns (fun f => Get f m k) (latest (rev ops ++ L) k).
Proof. exact settled_map. Qed.
Print Assumptions C49_map.

(** The sequential theorems hold of it: C02, C03, C04, C44, C09 and C10. *)
Theorem C49_put : forall m k v, settled m -> valid k -> valid v ->
  exists m', returns (fun f => Put f m k v) m' /\ settled m' /\ returns (fun f => Get f m' k) (Some v) /\
    forall k' o, valid k' -> k' <> k -> returns (fun f => Get f m k') o -> returns (fun f => Get f m' k') o.
Proof. exact (put_top settled settled_rep settled_step). Qed.
Print Assumptions C49_put.
Theorem C49_delete : forall m k m', settled m -> valid k -> returns (fun f => Delete f m k) m' ->
  settled m' /\ returns (fun f => Get f m' k) None /\
  forall k' o, valid k' -> k' <> k -> returns (fun f => Get f m k') o -> returns (fun f => Get f m' k') o.
Proof. exact (delete_effect settled settled_rep settled_step). Qed.
Print Assumptions C49_delete.
Theorem C49_delete_stored : forall m k v, settled m -> valid k -> returns (fun f => Get f m k) (Some v) ->
  exists m', returns (fun f => Delete f m k) m'.
Proof. exact (delete_present settled settled_rep settled_step). Qed.
Print Assumptions C49_delete_stored.
Theorem C49_delete_absent : forall m k, settled m -> valid k -> returns (fun f => Get f m k) None ->
  ((exists m', returns (fun f => Delete f m k) m') <-> ~ exists k', lookalike m k k').
Proof. exact (delete_returns_iff settled settled_rep settled_step). Qed.
Print Assumptions C49_delete_absent.
Theorem C49_occupancy : forall m a n, settled m -> in_tree m a -> node_at m a n ->
  min_children (n_type n) <= children_count n <= max_children (n_type n) /\
  (m_root m <> PNode a -> 2 <= entry_count n) /\
  n_num n = children_count n mod 256.
Proof. exact (occupancy settled settled_rep). Qed.
Print Assumptions C49_occupancy.
Theorem C49_empty_tree : forall m, settled m -> (forall k, valid k -> returns (fun f => Get f m k) None) ->
  exists a n, m_root m = PNode a /\ node_at m a n /\ n_type n = Node4 /\ entry_count n = 0 /\ (forall a', in_tree m a' -> a' = a).
Proof. exact (empty_tree settled settled_rep settled_step). Qed.
Print Assumptions C49_empty_tree.
Theorem C49_depth : forall m k, settled m -> valid k ->
  (exists o, Get (length k + 1) m k = Ok o) /\
  (forall v, valid v -> forall root pv, m_root m = PNode root -> get_ver m 0 = Ok pv ->
     exists ff m', insert (length k + 1) ff m k v 0 0 pv LRoot root = Ok (m', true)) /\
  (forall root pv, m_root m = PNode root -> get_ver m 0 = Ok pv ->
     exists m' ok, remove (length k + 1) m k 0 0 pv LRoot root = Ok (m', ok)).
Proof. exact (depth_bound settled settled_rep settled_step). Qed.
Print Assumptions C49_depth.

(** While others run: a node that is neither locked nor retired is within its bounds. *)
Theorem C49_occupancy_always : forall h s n c, fexec h s -> fcell s n = Some c -> n <> 0 -> locked (c_ver c) = false -> obsolete (c_ver c) = false ->
  min_children (n_type (c_node c)) <= children_count (c_node c) <= max_children (n_type (c_node c)) /\
  (m_root (fs_mem s) <> PNode n -> 2 <= entry_count (c_node c)) /\
  n_num (c_node c) = children_count (c_node c) mod 256.
Proof. exact occupancy_always. Qed.
Print Assumptions C49_occupancy_always.
(** Every node is retired or in the tree (the converse is C12). *)
Theorem C49_no_lost_node : forall h s n c, fexec h s -> quiet s -> fcell s n = Some c -> n <> 0 -> obsolete (c_ver c) = false -> in_tree (fs_mem s) n.
Proof. exact no_lost_node. Qed.
Print Assumptions C49_no_lost_node.

Definition quietb (s : fsys) : bool := forallb (fun c => negb (locked (c_ver c))) (m_cells (fs_mem s)).
Lemma quietb_ok s : quietb s = true -> quiet s.
Proof.
  intros H n. unfold flockbit, fcell. destruct (nth_error (m_cells (fs_mem s)) n) as [c|] eqn:E; auto.
  unfold quietb in H. rewrite forallb_forall in H. apply nth_error_In in E. specialize (H c E). now apply negb_true_iff in H.
Qed.
Definition retired_count (s : fsys) : nat := length (filter (fun c => obsolete (c_ver c)) (m_cells (fs_mem s))).
(** Three goroutines whose operations overlapped and all returned; one node was retired. *)
Example C49_example : let s := state_of ex_lin in fexec (events_of ex_lin) s /\ quiet s /\ settled (fs_mem s) /\ retired_count s = 1 /\
  map (Get 9 (fs_mem s)) [k_ab1; k_ab2; [97; 98; 51]; k_ac; k_ab] = [Ok (Some [1]); Ok (Some [2]); Ok (Some [5]); Ok None; Ok None].
Proof.
  assert (F : fexec (events_of ex_lin) (state_of ex_lin)) by (apply runs_ok_exec; vm_compute; reflexivity).
  assert (Q : quiet (state_of ex_lin)) by (apply quietb_ok; vm_compute; reflexivity).
  split; [exact F|]. split; [exact Q|]. split; [exists (events_of ex_lin), (state_of ex_lin), [], []; split; [exact F|]; split; [exact Q|]; split; constructor|].
  split; vm_compute; reflexivity.
Qed.
(** A Put panicked: the tree is intact and the key is not in it. *)
Example C49_example_panic : let s := state_of ex_panic in fexec (events_of ex_panic) s /\ quiet s /\ fs_thr s 1 = TAt (PCrash (OPut k_ab [4])) /\
  map (Get 9 (fs_mem s)) [k_ab1; k_ab2; k_ac; k_ab] = [Ok (Some [1]); Ok (Some [2]); Ok None; Ok None].
Proof.
  split; [apply runs_ok_exec; vm_compute; reflexivity|]. split; [apply quietb_ok; vm_compute; reflexivity|]. split; vm_compute; reflexivity.
Qed.
(** In the middle of a Put that has stored part of its new child: node 2 is locked, nodes 1
    and 3 are not, and the theorem applies to them. *)
Definition ex_busy : list (nat * act) := setup ++ [(2, ACall (OPut [97; 98; 51] [5])); (2, ASteps 73)].
Example C49_example_busy : let s := state_of ex_busy in fexec (events_of ex_busy) s /\
  map (fun c => (locked (c_ver c), obsolete (c_ver c), children_count (c_node c), n_num (c_node c))) (m_cells (fs_mem s)) =
  [(false, false, 0, 0); (false, false, 1, 1); (true, false, 2, 2); (false, false, 2, 2)].
Proof. split; [apply runs_ok_exec; vm_compute; reflexivity|vm_compute; reflexivity]. Qed.
