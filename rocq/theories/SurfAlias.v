(** * SurfAlias: the slices that Get and Value hand out.

    A value is returned as a slice of the filter's own array of values
    (bits_vec.go:155-158): nothing is copied.  SurfModel and SurfIter return the bytes of
    that slice; here the slice itself is returned, and a caller may assign to its elements
    or append to it.  The arrays come from [make] (bits_vec.go:146), so their capacity is
    their length; this file is about filters made by Build. *)
From Verif Require Import Base BitsModel VecModel SurfModel SurfIter.

(** The array a slice is part of: values of the dense (louds_dense.go:18) or of the sparse
    levels (louds_sparse.go:18). *)
Inductive part := DensePart | SparsePart.

(** A slice: its array, the offset of its first element and its length. *)
Record vslice := mkVS { sl_part : part; sl_off : nat; sl_len : nat }.

Definition part_values (s : surf) (p : part) : valueVector :=
  match p with DensePart => ld_values (s_ld s) | SparsePart => ls_values (s_ls s) end.
Definition ld_setValues (ld : loudsDense) (v : valueVector) : loudsDense :=
  mkLD (ld_label ld) (ld_hasChild ld) (ld_isPrefix ld) (ld_suffixes ld) v (ld_prefix ld) (ld_height ld).
Definition ls_setValues (ls : loudsSparse) (v : valueVector) : loudsSparse :=
  mkLS (ls_height ls) (ls_startLevel ls) (ls_denseNodeCount ls) (ls_denseChildCount ls) (ls_label ls) (ls_hasChild ls) (ls_louds ls)
    (ls_suffixes ls) v (ls_prefix ls).
(** The filter once its array [p] holds [bs]. *)
Definition set_bytes (s : surf) (p : part) (bs : bytes) : surf :=
  match p with
  | DensePart => mkSurf (ld_setValues (s_ld s) (mkVV bs (vv_valueSize (ld_values (s_ld s))))) (s_ls s)
  | SparsePart => mkSurf (s_ld s) (ls_setValues (s_ls s) (mkVV bs (vv_valueSize (ls_values (s_ls s)))))
  end.

(** bits_vec.go:155-158 Get, as a slice: it panics unless off <= off+size <= len. *)
Definition value_slice (s : surf) (p : part) (pos : nat) : res vslice :=
  let v := part_values s p in
  let off := pos * vv_valueSize v in
  if Nat.leb (off + vv_valueSize v) (length (vv_bytes v)) then Ok (mkVS p off (vv_valueSize v)) else Panic.

(** The elements of a slice, and its capacity: what is left of the array. *)
Definition sl_read (s : surf) (sl : vslice) : bytes := firstn (sl_len sl) (skipn (sl_off sl) (vv_bytes (part_values s (sl_part sl)))).
Definition sl_cap (s : surf) (sl : vslice) : nat := length (vv_bytes (part_values s (sl_part sl))) - sl_off sl.

(** [xs] written over [l] from position [off] on. *)
Definition overwrite {A} (l : list A) (off : nat) (xs : list A) : list A := firstn off l ++ xs ++ skipn (off + length xs) l.

(** Go [v[j] = b] by the caller. *)
Definition sl_write (s : surf) (sl : vslice) (j : nat) (b : byte) : res surf :=
  if Nat.ltb j (sl_len sl)
  then Ok (set_bytes s (sl_part sl) (overwrite (vv_bytes (part_values s (sl_part sl))) (sl_off sl + j) [b]))
  else Panic.

(** Go [append(v, xs...)] by the caller: in place when the capacity allows it, otherwise on
    a copy, which leaves the filter alone. *)
Definition sl_append (s : surf) (sl : vslice) (xs : bytes) : surf :=
  if Nat.leb (sl_len sl + length xs) (sl_cap s sl)
  then set_bytes s (sl_part sl) (overwrite (vv_bytes (part_values s (sl_part sl))) (sl_off sl + sl_len sl) xs)
  else s.

Section Hash.
Variable fingerprint64 : bytes -> N.

(** louds_dense.go:66-71, 80-84 and louds_sparse.go:82-86, 94-98: the suffix check, then the
    position whose value is returned. *)
Definition check_pos (sv : suffixVector) (valPos : nat) (key : bytes) (level : nat) : res (option nat) :=
  ok <- checkEquality fingerprint64 sv valPos key level ;; Ok (if ok : bool then Some valPos else None).

Inductive dpos := DFound (p : option nat) | DGoOn (nodeID depth : nat).

(** louds_dense.go:54-92 Get *)
Fixpoint ld_find_loop (todo : nat) (ld : loudsDense) (key : bytes) (nodeID depth : nat) : res dpos :=
  match todo with
  | O => Ok (DGoOn nodeID depth)
  | S todo' =>
      ' (prefixLen, ok) <- checkPrefix (ld_prefix ld) key depth nodeID ;;
      if negb ok then Ok (DFound None) else
      let depth := depth + prefixLen in
      let pos := nodeID * 256 in
      if Nat.leb (length key) depth then
        p <- rv_isSet (ld_isPrefix ld) nodeID ;;
        if p : bool then
          valPos <- ld_suffixPos ld pos true ;;
          v <- check_pos (ld_suffixes ld) valPos key (depth + 1) ;;
          Ok (DFound v)
        else Ok (DFound None)
      else
        kb <- idx key depth ;;
        let pos := pos + kb in
        l <- rv_isSet (ld_label ld) pos ;;
        if negb l then Ok (DFound None) else
        h <- rv_isSet (ld_hasChild ld) pos ;;
        if negb h then
          valPos <- ld_suffixPos ld pos false ;;
          v <- check_pos (ld_suffixes ld) valPos key (depth + 1) ;;
          Ok (DFound v)
        else
          nodeID <- ld_childNodeID ld pos ;;
          ld_find_loop todo' ld key nodeID (depth + 1)
  end.

(** louds_sparse.go:93-101 *)
Definition ls_find_end (ls : loudsSparse) (key : bytes) (pos depth : nat) : res (option nat) :=
  l <- getLabel (ls_label ls) pos ;;
  h <- (if Nat.eqb l labelTerminator then rv_isSet (ls_hasChild ls) pos else Ok true) ;;
  if h : bool then Ok None else
  valPos <- ls_suffixPos ls pos ;;
  check_pos (ls_suffixes ls) valPos key (depth + 1).

(** louds_sparse.go:60-102 Get *)
Fixpoint ls_find_loop (fuel : nat) (ls : loudsSparse) (key : bytes) (nodeID pos depth : nat) : res (option nat) :=
  if Nat.leb (length key) depth then ls_find_end ls key pos depth else
  match fuel with
  | O => Hang
  | S fuel' =>
      pid <- ls_prefixID ls nodeID ;;
      ' (prefixLen, ok) <- checkPrefix (ls_prefix ls) key depth pid ;;
      if negb ok then Ok None else
      let depth := depth + prefixLen in
      if Nat.leb (length key) depth then ls_find_end ls key pos depth else
      kb <- idx key depth ;;
      size <- ls_nodeSize ls pos ;;
      ' (pos, ok) <- label_search (ls_label ls) kb pos size ;;
      if negb ok then Ok None else
      h <- rv_isSet (ls_hasChild ls) pos ;;
      if negb h then
        valPos <- ls_suffixPos ls pos ;;
        check_pos (ls_suffixes ls) valPos key (depth + 1)
      else
        nodeID <- ls_childNodeID ls pos ;;
        pos <- ls_firstLabelPos ls nodeID ;;
        ls_find_loop fuel' ls key nodeID pos (depth + 1)
  end.

(** surf.go:15-21 Get: which value is returned. *)
Definition surf_find (s : surf) (key : bytes) : res (option (part * nat)) :=
  r <- ld_find_loop (ld_height (s_ld s)) (s_ld s) key 0 0 ;;
  match r with
  | DFound v => Ok (option_map (pair DensePart) v)
  | DGoOn nodeID depth =>
      pos <- ls_firstLabelPos (s_ls s) nodeID ;;
      v <- ls_find_loop (length key) (s_ls s) key nodeID pos depth ;;
      Ok (option_map (pair SparsePart) v)
  end.

(** surf.go:15-21 Get: the slice; [None] is (nil, false). *)
Definition surf_slice (s : surf) (key : bytes) : res (option vslice) :=
  r <- surf_find s key ;;
  match r with
  | Some (p, pos) => sl <- value_slice s p pos ;; Ok (Some sl)
  | None => Ok None
  end.
End Hash.

(** louds_dense.go:336-339, louds_sparse.go:347-350 and surf.go:195-201: the slice that Value
    returns. *)
Definition it_find (s : surf) (it : iter) : res (part * nat) :=
  if d_isComplete (i_dense it) then
    pos <- idx (d_pos (i_dense it)) (d_level (i_dense it)) ;;
    vp <- ld_suffixPos (s_ld s) pos (d_atPrefix (i_dense it)) ;;
    Ok (DensePart, vp)
  else
    pos <- idx (p_pos (i_sparse it)) (p_level (i_sparse it)) ;;
    vp <- ls_suffixPos (s_ls s) pos ;;
    Ok (SparsePart, vp).
Definition it_slice (s : surf) (it : iter) : res vslice :=
  ' (p, pos) <- it_find s it ;; value_slice s p pos.
