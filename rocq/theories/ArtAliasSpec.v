(** * ArtAliasSpec: what a program that keeps and changes returned values should see. *)
From Verif Require Import Base BitsModel VecModel ArtNode ArtModel ArtSpec ArtAlias.

Inductive wop := WPut (k v : bytes) | WGet (k : bytes) | WDelete (k : bytes) | WStore (n j : nat) (b : byte) | WAppend (n : nat) (xs : bytes).
Definition valid_wop (o : wop) : Prop :=
  match o with WPut k v => valid k /\ valid v | WGet k => valid k | WDelete k => valid k | _ => True end.
(** Executions of one goroutine in which every call returns. *)
Inductive wruns : world -> list wop -> world -> Prop :=
  | wruns_nil w : wruns w [] w
  | wruns_put w k v w1 ops w' : returns (fun f => wPut f w k v) w1 -> wruns w1 ops w' -> wruns w (WPut k v :: ops) w'
  | wruns_get w k o ops w' : returns (fun f => wGet f w k) o -> wruns w ops w' -> wruns w (WGet k :: ops) w'
  | wruns_delete w k w1 ops w' : returns (fun f => wDelete f w k) w1 -> wruns w1 ops w' -> wruns w (WDelete k :: ops) w'
  | wruns_store w n j b w1 ops w' : wStore w n j b = Ok w1 -> wruns w1 ops w' -> wruns w (WStore n j b :: ops) w'
  | wruns_append w n xs w1 ops w' : wAppend w n xs = Ok w1 -> wruns w1 ops w' -> wruns w (WAppend n xs :: ops) w'.

(** The bytes that Get shows. *)
Definition shows (w : world) (k : bytes) (o : option bytes) : Prop :=
  exists h, returns (fun f => wGet f w k) h /\ o = match h with Some n => wRead w n | None => None end /\ (h = None <-> o = None).

(** The ideal: histories, latest call first.  [puts] counts Puts; the block of a key is that of
    its latest Put unless it was deleted since; a block holds what was put with the caller's
    assignments since. *)
Fixpoint puts (h : list wop) : nat := match h with [] => 0 | WPut _ _ :: h' => S (puts h') | _ :: h' => puts h' end.
Fixpoint owner (h : list wop) (k : bytes) : option nat :=
  match h with
  | [] => None
  | WPut k' _ :: h' => if beqb k' k then Some (puts h') else owner h' k
  | WDelete k' :: h' => if beqb k' k then None else owner h' k
  | _ :: h' => owner h' k
  end.
Fixpoint content (h : list wop) (n : nat) : option bytes :=
  match h with
  | [] => None
  | WPut _ v :: h' => if Nat.eqb n (puts h') then Some v else content h' n
  | WStore n' j b :: h' => if Nat.eqb n' n then option_map (fun v => set_nth v j b) (content h' n) else content h' n
  | _ :: h' => content h' n
  end.
Definition ideal (h : list wop) (k : bytes) : option bytes := match owner h k with Some n => content h n | None => None end.

(** Fewer than 2^(2^32) calls: then the numbers of Puts are values that a leaf can hold. *)
Definition few (ops : list wop) : Prop := (N.log2 (N.of_nat (S (length ops))) < 4294967296)%N.
