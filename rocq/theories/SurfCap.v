(** * SurfCap: Get on whatever Unmarshal accepted.

    Unmarshal does not check its data, and the slices it makes are slices of the caller's
    buffer, so that their capacity reaches to the end of that buffer.  Go allows [x[a:b]] up to
    the capacity.  For filters that Build made this is never used; for other data it is.
    This file repeats Get of SurfWord.v with the two slice expressions in which it matters:
    the value (bits_vec.go:157) and the prefix (bits_vec.go:565).  All other slice expressions
    of Get end at a length or are on the key.  [select32] with rank 0 is [Panic], as in
    VecModel.v, which is exact unless the damaged vector has 2^32 - 1 ones or more.
    Data may name a suffix type that does not exist: such suffixes are read like hash suffixes
    and compared with 0. *)
From Verif Require Import Base BitsModel VecModel SurfModel SurfMarshal SurfWord SurfWordMarshal.

(** What lies in the caller's buffer, up to its capacity, behind the four slices, and whether the
    suffix types of the two parts do not exist. *)
Record extra := mkEx { ex_dprefix : bytes; ex_sprefix : bytes; ex_dvalues : bytes; ex_svalues : bytes; ex_dunknown : bool; ex_sunknown : bool }.

(** Go [l[a:b]] when [more] is what lies behind [l] in its array. *)
Definition slice_cap (l more : bytes) (a b : nat) : res bytes := slice (l ++ more) a b.

(** bits_vec.go:155-158 Get *)
Definition valueVector_getC (more : bytes) (v : valueVector) (pos : nat) : res bytes :=
  let off := mul32 pos (vv_valueSize v) in
  slice_cap (vv_bytes v) more off (add32 off (vv_valueSize v)).
(** bits_vec.go:554-566 GetPrefix *)
Definition getPrefixC (more : bytes) (v : prefixVec) (nodeID : nat) : res bytes :=
  b <- rv_isSet (pv_has v) nodeID ;;
  if negb b then Ok [] else
  r <- rank_at32 rankSparseBlockSize (pv_has v) nodeID ;;
  let prefixID := minus32 r 1 in
  so <- slice_from (pv_offsets v) (mul32 prefixID 4) ;;
  start <- get32 so ;;
  e <- (if Nat.ltb (mul32 (add32 prefixID 1) 4) (length (pv_offsets v))
        then eo <- slice_from (pv_offsets v) (mul32 (add32 prefixID 1) 4) ;; get32 eo
        else Ok (w32 (length (pv_data v)))) ;;
  slice_cap (pv_data v) more start e.
(** bits_vec.go:539-552 CheckPrefix *)
Definition checkPrefixC (more : bytes) (v : prefixVec) (key : bytes) (depth nodeID : nat) : res (nat * bool) :=
  prefix <- getPrefixC more v nodeID ;;
  if Nat.eqb (length prefix) 0 then Ok (0, true) else
  if Nat.ltb (length key) (depth + length prefix) then Ok (0, false) else
  k <- slice key depth (add32 depth (w32 (length prefix))) ;;
  if beqb k prefix then Ok (w32 (length prefix), true) else Ok (0, false).

Section Hash.
Variable fingerprint64 : bytes -> N.

(** bits_vec.go:637-656 CheckEquality; bits_vec.go:762-763: an unknown type expects 0 *)
Definition checkEqualityC (unknown : bool) (v : suffixVector) (i : nat) (key : bytes) (level : nat) : res bool :=
  if unknown then
    if Nat.leb (bv_numBits (xv_bv v)) (mul32 i (xv_suffixLen32 v)) then Ok false else
    suffix <- suffix_read32 v i ;; Ok (suffix =? 0)%N
  else checkEquality32 fingerprint64 v i key level.
(** louds_dense.go:66-71, 80-84 and louds_sparse.go:82-86, 94-98 *)
Definition check_valueC (more : bytes) (unknown : bool) (sv : suffixVector) (vv : valueVector) (valPos : nat) (key : bytes) (level : nat) : res (option bytes) :=
  ok <- checkEqualityC unknown sv valPos key level ;;
  if ok : bool then v <- valueVector_getC more vv valPos ;; Ok (Some v) else Ok None.

(** louds_dense.go:54-92 Get *)
Fixpoint ld_get_loopC (ex : extra) (todo : nat) (ld : loudsDense) (key : bytes) (nodeID depth : nat) : res dres :=
  match todo with
  | O => Ok (DCont nodeID depth)
  | S todo' =>
      ' (prefixLen, ok) <- checkPrefixC (ex_dprefix ex) (ld_prefix ld) key depth nodeID ;;
      if negb ok then Ok (DAnswer None) else
      let depth := add32 depth prefixLen in
      let pos := mul32 nodeID 256 in
      if Nat.leb (w32 (length key)) depth then
        p <- rv_isSet (ld_isPrefix ld) nodeID ;;
        if p : bool then
          valPos <- ld_suffixPos32 ld pos true ;;
          v <- check_valueC (ex_dvalues ex) (ex_dunknown ex) (ld_suffixes ld) (ld_values ld) valPos key (add32 depth 1) ;;
          Ok (DAnswer v)
        else Ok (DAnswer None)
      else
        kb <- idx key depth ;;
        let pos := add32 pos kb in
        l <- rv_isSet (ld_label ld) pos ;;
        if negb l then Ok (DAnswer None) else
        h <- rv_isSet (ld_hasChild ld) pos ;;
        if negb h then
          valPos <- ld_suffixPos32 ld pos false ;;
          v <- check_valueC (ex_dvalues ex) (ex_dunknown ex) (ld_suffixes ld) (ld_values ld) valPos key (add32 depth 1) ;;
          Ok (DAnswer v)
        else
          nodeID <- rank_at32 rankDenseBlockSize (ld_hasChild ld) pos ;;
          ld_get_loopC ex todo' ld key nodeID (add32 depth 1)
  end.

(** louds_sparse.go:93-101 *)
Definition ls_get_endC (ex : extra) (ls : loudsSparse) (key : bytes) (pos depth : nat) : res (option bytes) :=
  l <- getLabel (ls_label ls) pos ;;
  h <- (if Nat.eqb l labelTerminator then rv_isSet (ls_hasChild ls) pos else Ok true) ;;
  if h : bool then Ok None else
  valPos <- ls_suffixPos32 ls pos ;;
  check_valueC (ex_svalues ex) (ex_sunknown ex) (ls_suffixes ls) (ls_values ls) valPos key (add32 depth 1).
(** louds_sparse.go:60-102 Get *)
Fixpoint ls_get_loopC (ex : extra) (fuel : nat) (ls : loudsSparse) (key : bytes) (nodeID pos depth : nat) : res (option bytes) :=
  if Nat.leb (w32 (length key)) depth then ls_get_endC ex ls key pos depth else
  match fuel with
  | O => Hang
  | S fuel' =>
      ' (prefixLen, ok) <- checkPrefixC (ex_sprefix ex) (ls_prefix ls) key depth (minus32 nodeID (ls_denseNodeCount ls)) ;;
      if negb ok then Ok None else
      let depth := add32 depth prefixLen in
      if Nat.leb (w32 (length key)) depth then ls_get_endC ex ls key pos depth else
      kb <- idx key depth ;;
      size <- distanceToNextSetBit32 (sv_bv (ls_louds ls)) pos ;;
      ' (pos, ok) <- label_search32 (ls_label ls) kb pos size ;;
      if negb ok then Ok None else
      h <- rv_isSet (ls_hasChild ls) pos ;;
      if negb h then
        valPos <- ls_suffixPos32 ls pos ;;
        check_valueC (ex_svalues ex) (ex_sunknown ex) (ls_suffixes ls) (ls_values ls) valPos key (add32 depth 1)
      else
        nodeID <- ls_childNodeID32 ls pos ;;
        pos <- ls_firstLabelPos32 ls nodeID ;;
        ls_get_loopC ex fuel' ls key nodeID pos (add32 depth 1)
  end.

(** surf.go:15-21 Get *)
Definition surf_getC (ex : extra) (s : surf) (key : bytes) : res (option bytes) :=
  r <- ld_get_loopC ex (ld_height (s_ld s)) (s_ld s) key 0 0 ;;
  match r with
  | DAnswer v => Ok v
  | DCont nodeID depth =>
      pos <- ls_firstLabelPos32 (s_ls s) nodeID ;;
      ls_get_loopC ex (length key) (s_ls s) key nodeID pos depth
  end.
End Hash.

(** ** Unmarshal *)
(** bits_vec.go:717-734: any byte is taken for a suffix type; an unknown one stands as [HashSuffix]. *)
Definition byte_typeC (b : byte) : SuffixType := match byte_type b with Ok t => t | _ => HashSuffix end.
Definition unknown_type (b : byte) : bool := match byte_type b with Ok _ => false | _ => true end.
Definition xv_readC (buf : bytes) : res (suffixVector * bytes) :=
  nb <- getw buf ;;
  tb <- idx buf 4 ;;
  let t := byte_typeC tb in
  b1 <- slice_from buf 5 ;;
  hl <- getw b1 ;;
  b2 <- slice_from buf 9 ;;
  rl <- getw b2 ;;
  ' (ws, cursor) <-
    (if suffixType_eqb t NoneSuffix then Ok ([], 13)
     else ws <- slice buf 13 (13 + bitsSize32 nb) ;; Ok (bytesToU64Slice ws, 13 + bitsSize32 nb)) ;;
  rest <- slice_from buf (align cursor) ;;
  Ok (mkXV (mkBV nb ws) t hl rl, rest).
(** louds_dense.go:131-142 *)
Definition ld_readC (buf : bytes) : res ((valueVector -> loudsDense) * bytes) :=
  h <- getw buf ;;
  b <- slice_from buf 4 ;;
  ' (label, b) <- rv_read32 b ;;
  ' (hasChild, b) <- rv_read32 b ;;
  ' (isPrefix, b) <- rv_read32 b ;;
  ' (suffixes, b) <- xv_readC b ;;
  ' (prefix, b) <- pv_read32 b ;;
  rest <- slice_from buf (align (length buf - length b)) ;;
  Ok (fun values => mkLD label hasChild isPrefix suffixes values prefix h, rest).
(** louds_sparse.go:152-171 *)
Definition ls_readC (buf : bytes) : res ((valueVector -> loudsSparse) * bytes) :=
  height <- getw buf ;;
  b <- slice_from buf 4 ;;
  start <- getw b ;;
  b <- slice_from b 4 ;;
  dnc <- getw b ;;
  b <- slice_from b 4 ;;
  dcc <- getw b ;;
  b <- slice_from b 4 ;;
  ' (label, b) <- lab_read32 b ;;
  ' (hasChild, b) <- rv_read32 b ;;
  ' (louds, b) <- sv_read32 b ;;
  ' (suffixes, b) <- xv_readC b ;;
  ' (prefix, b) <- pv_read32 b ;;
  rest <- slice_from buf (align (length buf - length b)) ;;
  Ok (fun values => mkLS height start dnc dcc label hasChild louds suffixes values prefix, rest).
(** surf.go:79-84 *)
Definition unmarshalC (b : bytes) : res surf :=
  ' (ld, b) <- ld_readC b ;;
  ' (ls, b) <- ls_readC b ;;
  ' (dv, b) <- vv_read32 b ;;
  ' (sv, _) <- vv_read32 b ;;
  Ok (mkSurf (ld dv) (ls sv)).

(** ** Where Unmarshal (surf.go:79-84) takes the four slices from *)
(** bits_vec.go:190-202 *)
Definition vv_behind (buf : bytes) : res bytes := sz <- getw buf ;; slice_from buf (8 + sz).
(** bits_vec.go:593-606 *)
Definition pv_behind (b : bytes) : res bytes :=
  ' (_, buf1) <- rv_read32 b ;;
  ol <- getw buf1 ;;
  b2 <- slice_from buf1 4 ;;
  dl <- getw b2 ;;
  slice_from buf1 (8 + ol + dl).
(** louds_dense.go:131-142 *)
Definition ld_behind (buf : bytes) : res (bool * bytes) :=
  b <- slice_from buf 4 ;;
  ' (_, b) <- rv_read32 b ;;
  ' (_, b) <- rv_read32 b ;;
  ' (_, b) <- rv_read32 b ;;
  t <- idx b 4 ;;
  ' (_, b) <- xv_readC b ;;
  x <- pv_behind b ;;
  Ok (unknown_type t, x).
(** louds_sparse.go:152-171 *)
Definition ls_behind (buf : bytes) : res (bool * bytes) :=
  b <- slice_from buf 4 ;;
  b <- slice_from b 4 ;;
  b <- slice_from b 4 ;;
  b <- slice_from b 4 ;;
  ' (_, b) <- lab_read32 b ;;
  ' (_, b) <- rv_read32 b ;;
  ' (_, b) <- sv_read32 b ;;
  t <- idx b 4 ;;
  ' (_, b) <- xv_readC b ;;
  x <- pv_behind b ;;
  Ok (unknown_type t, x).
(** [more] is what lies in the array behind the bytes [b] given to Unmarshal. *)
Definition extra_of (b more : bytes) : res extra :=
  ' (du, dp) <- ld_behind b ;;
  ' (_, b) <- ld_readC b ;;
  ' (su, sp) <- ls_behind b ;;
  ' (_, b) <- ls_readC b ;;
  dv <- vv_behind b ;;
  ' (_, b) <- vv_read32 b ;;
  sv <- vv_behind b ;;
  Ok (mkEx (dp ++ more) (sp ++ more) (dv ++ more) (sv ++ more) du su).

(** Unmarshal of [b], which is followed by [more] in its array, and Get. *)
Definition unmarshal_get (fp : bytes -> N) (b more key : bytes) : res (option bytes) :=
  s <- unmarshalC b ;;
  ex <- extra_of b more ;;
  surf_getC fp ex s key.
