(** * ArtSpec: what the ART properties talk about - the API and its observable effects.

    Nothing here mentions how nodes are laid out or proved correct. *)
From Verif Require Import Base BitsModel VecModel ArtNode ArtModel.

(** A byte string: every element is below 256 and the length fits a uint32. *)
Definition valid (k : bytes) : Prop := Forall (fun b => b < 256) k /\ (N.of_nat (length k) < 4294967296)%N.

(** A computation returns [x]: it answers [Ok x] for all sufficiently large fuel. *)
Definition returns {A} (f : nat -> res A) (x : A) : Prop := exists N, forall fuel, N <= fuel -> f fuel = Ok x.
(** It never returns and never panics: it retries for ever. *)
Definition diverges {A} (f : nat -> res A) : Prop := forall fuel, f fuel = Hang.

Inductive op := OPut (k v : bytes) | OGet (k : bytes) | ODelete (k : bytes).
Definition valid_op (o : op) : Prop :=
  match o with OPut k v => valid k /\ valid v | OGet k => valid k | ODelete k => valid k end.

(** Sequential executions: a Get adds its answer to the list of observations. *)
Inductive runs : mem -> list op -> mem -> list (option bytes) -> Prop :=
  | runs_nil m : runs m [] m []
  | runs_put m k v m1 ops m' outs : returns (fun f => Put f m k v) m1 -> runs m1 ops m' outs ->
      runs m (OPut k v :: ops) m' outs
  | runs_get m k o ops m' outs : returns (fun f => Get f m k) o -> runs m ops m' outs ->
      runs m (OGet k :: ops) m' (o :: outs)
  | runs_delete m k m1 ops m' outs : returns (fun f => Delete f m k) m1 -> runs m1 ops m' outs ->
      runs m (ODelete k :: ops) m' outs.

(** The ideal map: the history, latest call first. *)
Fixpoint latest (h : list op) (k : bytes) : option bytes :=
  match h with
  | [] => None
  | OPut k' v :: h' => if beqb k' k then Some v else latest h' k
  | ODelete k' :: h' => if beqb k' k then None else latest h' k
  | OGet _ :: h' => latest h' k
  end.
Fixpoint answers (h ops : list op) : list (option bytes) :=
  match ops with
  | [] => []
  | OGet k :: ops' => latest h k :: answers (OGet k :: h) ops'
  | o :: ops' => answers (o :: h) ops'
  end.

(** Trees reachable by single-goroutine use. *)
Definition reachable (m : mem) : Prop := exists ops outs, Forall valid_op ops /\ runs New ops m outs.

(** ** The heap as seen by following pointers from the root *)
Definition node_at (m : mem) (a : nat) (n : node) : Prop := exists v, nth_error (m_cells m) a = Some (mkCell v n).
(** The child stored under a byte. *)
Definition child (n : node) (b : nat) : option ptr :=
  match findChild n b with Ok (c, _, _) => c | _ => None end.
Inductive in_tree (m : mem) : nat -> Prop :=
  | in_root a : m_root m = PNode a -> in_tree m a
  | in_child a n b a' : in_tree m a -> node_at m a n -> b < 256 -> child n b = Some (PNode a') -> in_tree m a'.

Definition present {A} (o : option A) : bool := match o with Some _ => true | None => false end.
Definition children_count (n : node) : nat := length (filter (fun b => present (child n b)) (seq 0 256)).
Definition entry_count (n : node) : nat := children_count n + (if present (n_pleaf n) then 1 else 0).
Definition max_children (t : ntype) : nat :=
  match t with Node4 => 4 | Node16 => 16 | Node48 => 48 | Node256 => 256 | Dummy => 0 end.
(** A node16, node48 or node256 shrinks when a removal would leave fewer children. *)
Definition min_children (t : ntype) : nat :=
  match t with Node16 => 4 | Node48 => 13 | Node256 => 38 | _ => 0 end.

(** ** One inner node driven through any sequence of child insertions, replacements and
    removals, the way insert and remove drive it (grow when full, shrink when small). *)
Definition setf (f : nat -> option ptr) (b : nat) (x : option ptr) : nat -> option ptr :=
  fun b' => if Nat.eqb b' b then x else f b'.
Definition add_child (n : node) (b : nat) (p : ptr) : res node :=
  full <- isFull n ;; if full : bool then growAndInsert n b p else insertChild n b p.
Definition replace_child (n : node) (b : nat) (p : ptr) : res node :=
  ' (_, slot, _) <- findChild n b ;; cs <- upd (n_children n) slot (Some p) ;; Ok (set_children n cs).
(** [pt] is the kind of the parent: a node4 below another node is merged away by the
    caller instead, so here its removals happen with the dummy parent. *)
Definition drop_child (n : node) (b : nat) : res node :=
  ' (_, _, i) <- findChild n b ;;
  sh <- shouldShrink n Dummy ;;
  if sh : bool then match n_type n with
    | Node16 => shrink16 n b | Node48 => shrink48 n b | Node256 => shrink256 n b | _ => Panic end
  else removeChild n i.

Inductive built : node -> (nat -> option ptr) -> Prop :=
  | built_new : built newNode4 (fun _ => None)
  | built_add n f b p n' : built n f -> b < 256 -> f b = None -> add_child n b p = Ok n' -> built n' (setf f b (Some p))
  | built_replace n f b p n' : built n f -> b < 256 -> f b <> None -> replace_child n b p = Ok n' -> built n' (setf f b (Some p))
  | built_drop n f b n' : built n f -> b < 256 -> f b <> None -> drop_child n b = Ok n' -> built n' (setf f b None).
