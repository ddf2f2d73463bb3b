(** * art/range.go: lastChild. *)
From Verif Require Import Base BitsModel ArtNode.

(** range.go:42-50: [f] bytes remain, the next one is [f - 1]. *)
Fixpoint last48_loop (n : node) (f : nat) : res (option ptr) :=
  match f with
  | O => Panic
  | S i =>
      ix <- idx (n_index n) i ;;
      if Nat.eqb ix 0 then last48_loop n i else
      c <- idx (n_children n) (ix - 1) ;;
      match c with Some _ => Ok c | None => last48_loop n i end
  end.

(** range.go:53-57 *)
Fixpoint last256_loop (n : node) (f : nat) : res (option ptr) :=
  match f with
  | O => Panic
  | S i =>
      c <- idx (n_children n) i ;;
      match c with Some _ => Ok c | None => last256_loop n i end
  end.

(** range.go:33-60 lastChild. [numChildren - 1] is a uint8: 255 for a childless node, which
    is out of range of the 4 or 16 children. *)
Definition lastChild (n : node) : res (option ptr) :=
  match n_type n with
  | Node4 | Node16 => idx (n_children n) ((n_num n + 255) mod 256)
  | Node48 => last48_loop n 256
  | Node256 => last256_loop n 256
  | Dummy => Panic
  end.
