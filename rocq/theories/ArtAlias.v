(** * ArtAlias: the slices that ART's Get hands out.

    Put copies key and value into a block of its own (node.go:150-162 newLeaf, called once by a
    Put, and by nothing else: art.go:197, 209 and node.go:299, 325, 327, 333, 548, 550 in updatePrefixLeaf, insertSplitPrefix,
    updateOrExpand), and Get returns a slice of that block (node.go:180-191 value): nothing is
    copied.  ArtModel returns the bytes of that slice; here the slice itself is returned, and
    a caller may keep it, read it, assign to its elements or append to it.

    A block is named by the number of the Put that made it.  The tree moves leaves without
    looking at their values, so it is run with these numbers as values ([tag]) while
    [w_blocks] holds the bytes.  One goroutine; [Hang] and [Panic] are ArtModel's. *)
From Verif Require Import Base BitsModel VecModel ArtNode ArtModel.

(** Numbers as byte strings. *)
Fixpoint pos_bytes (p : positive) : bytes :=
  match p with xH => [] | xO p => 0 :: pos_bytes p | xI p => 1 :: pos_bytes p end.
Fixpoint bytes_pos (l : bytes) : positive :=
  match l with [] => xH | O :: l => xO (bytes_pos l) | S _ :: l => xI (bytes_pos l) end.
Definition tag (n : nat) : bytes := pos_bytes (Pos.of_succ_nat n).
Definition untag (l : bytes) : nat := pred (Pos.to_nat (bytes_pos l)).

(** The tree and the values in the blocks made so far. *)
Record world := mkW { w_tree : mem; w_blocks : list bytes }.
Definition wNew : world := mkW New [].

(** art.go:46-52 Put; node.go:160 copies the value. *)
Definition wPut (fuel : nat) (w : world) (k v : bytes) : res world :=
  t <- Put fuel (w_tree w) k (tag (length (w_blocks w))) ;; Ok (mkW t (w_blocks w ++ [v])).
(** art.go:36-42 Get: the block whose value is returned. *)
Definition wGet (fuel : nat) (w : world) (k : bytes) : res (option nat) :=
  o <- Get fuel (w_tree w) k ;; Ok (option_map untag o).
(** art.go:56-62 Delete *)
Definition wDelete (fuel : nat) (w : world) (k : bytes) : res world :=
  t <- Delete fuel (w_tree w) k ;; Ok (mkW t (w_blocks w)).

(** The bytes of a held slice. *)
Definition wRead (w : world) (n : nat) : option bytes := nth_error (w_blocks w) n.
(** Go [v[j] = b] on a held slice. *)
Definition wStore (w : world) (n j : nat) (b : byte) : res world :=
  v <- idx (w_blocks w) n ;;
  if Nat.ltb j (length v) then Ok (mkW (w_tree w) (set_nth (w_blocks w) n (set_nth v j b))) else Panic.
(** Go [append(v, xs...)] on a held slice: in place when the capacity allows it.  The
    capacity of a value is its length (node.go:187-188). *)
Definition wCap (v : bytes) : nat := length v.
Definition wAppend (w : world) (n : nat) (xs : bytes) : res world :=
  v <- idx (w_blocks w) n ;;
  if Nat.leb (length v + length xs) (wCap v) then Ok (mkW (w_tree w) (set_nth (w_blocks w) n (v ++ xs))) else Ok w.
