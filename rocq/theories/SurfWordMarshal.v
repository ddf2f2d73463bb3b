(** * SurfWordMarshal: MarshalSize, Marshal and Unmarshal with the uint32 arithmetic of the code.

    As SurfMarshal.v, function by function, but every uint32 value read from the buffer and
    every uint32 sum and product is taken modulo 2^32.  What the code computes in int64
    (cursors and the sums of sizes, bits_vec.go:160-732, louds_*.go MarshalSize) stays as it is. *)
From Verif Require Import Base BitsModel VecModel SurfModel SurfMarshal SurfWord.

(** endian.Uint32 returns a uint32 *)
Definition getw (b : bytes) : res nat := n <- get32 b ;; Ok (w32 n).
(** bits_vec.go:25-27 bitsSize, 237-239 and 352-354 lutSize: all uint32 *)
Definition bitsSize32 (nb : nat) : nat := mul32 (numWords nb) 8.
Definition slut32 (no : nat) : nat := mul32 (add32 (no / 64) 1) 4.
Definition rlut32 (nb blk : nat) : nat := mul32 (add32 (nb / blk) 1) 4.

(** ** valueVector (bits_vec.go:160-202): written as in SurfMarshal.v *)
Definition vv_read32 (buf : bytes) : res (valueVector * bytes) :=
  sz <- getw buf ;;
  b1 <- slice_from buf 4 ;;
  vs <- getw b1 ;;
  bs <- slice buf 8 (8 + sz) ;;
  rest <- slice_from buf (align (8 + sz)) ;;
  Ok (mkVV bs vs, rest).

(** ** selectVector (bits_vec.go:277-323) *)
Definition sv_rawSize32 (v : selectVector) : nat := 4 + 4 + bitsSize32 (bv_numBits (sv_bv v)) + slut32 (sv_numOnes v).
Definition sv_size32 (v : selectVector) : nat := align (sv_rawSize32 v).
Definition sv_write32 (v : selectVector) : bytes :=
  put32 (bv_numBits (sv_bv v)) ++ put32 (sv_numOnes v) ++ u64SliceToBytes (bv_bits (sv_bv v)) ++
  u32SliceToBytes (sv_lut v) ++ padding (sv_rawSize32 v).
Definition sv_read32 (buf : bytes) : res (selectVector * bytes) :=
  nb <- getw buf ;;
  b1 <- slice_from buf 4 ;;
  no <- getw b1 ;;
  let bitsSz := bitsSize32 nb in
  ws <- slice buf 8 (8 + bitsSz) ;;
  let lutSz := slut32 no in
  lut <- slice buf (8 + bitsSz) (8 + bitsSz + lutSz) ;;
  rest <- slice_from buf (align (8 + bitsSz + lutSz)) ;;
  Ok (mkSV (mkBV nb (bytesToU64Slice ws)) no (bytesToU32Slice lut), rest).

(** ** rankVector (bits_vec.go:352-400) *)
Definition rv_rawSize32 (v : rankVector) : nat := 4 + 4 + bitsSize32 (bv_numBits (rv_bv v)) + rlut32 (bv_numBits (rv_bv v)) (rv_blockSize v).
Definition rv_size32 (v : rankVector) : nat := align (rv_rawSize32 v).
Definition rv_write32 (v : rankVector) : bytes :=
  put32 (bv_numBits (rv_bv v)) ++ put32 (rv_blockSize v) ++ u64SliceToBytes (bv_bits (rv_bv v)) ++
  u32SliceToBytes (rv_lut v) ++ padding (rv_rawSize32 v).
Definition rv_read32 (buf : bytes) : res (rankVector * bytes) :=
  nb <- getw buf ;;
  b1 <- slice_from buf 4 ;;
  blk <- getw b1 ;;
  let bitsSz := bitsSize32 nb in
  ws <- slice buf 8 (8 + bitsSz) ;;
  if Nat.eqb blk 0 then Panic else
  let lutSz := rlut32 nb blk in
  lut <- slice buf (8 + bitsSz) (8 + bitsSz + lutSz) ;;
  rest <- slice_from buf (align (8 + bitsSz + lutSz)) ;;
  Ok (mkRV (mkBV nb (bytesToU64Slice ws)) blk (bytesToU32Slice lut), rest).

(** ** labelVector (bits_vec.go:488-516): line 514 computes 4+l in uint32 *)
Definition lab_read32 (buf : bytes) : res (bytes * bytes) :=
  n <- getw buf ;;
  l <- slice buf 4 (add32 4 n) ;;
  rest <- slice_from buf (align (add32 4 n)) ;;
  Ok (l, rest).

(** ** prefixVec (bits_vec.go:568-614) *)
Definition pv_rawSize32 (v : prefixVec) : nat := rv_size32 (pv_has v) + 8 + (length (pv_offsets v) + length (pv_data v)).
Definition pv_size32 (v : prefixVec) : nat := align (pv_rawSize32 v).
Definition pv_write32 (v : prefixVec) : bytes :=
  rv_write32 (pv_has v) ++ put32 (length (pv_offsets v)) ++ put32 (length (pv_data v)) ++ pv_offsets v ++ pv_data v ++
  padding (pv_rawSize32 v).
Definition pv_read32 (b : bytes) : res (prefixVec * bytes) :=
  ' (has, buf1) <- rv_read32 b ;;
  ol <- getw buf1 ;;
  b2 <- slice_from buf1 4 ;;
  dl <- getw b2 ;;
  os <- slice buf1 8 (8 + ol) ;;
  ds <- slice buf1 (8 + ol) (8 + ol + dl) ;;
  let v := mkPV has os ds in
  rest <- slice_from b (pv_size32 v) ;;
  Ok (v, rest).

(** ** suffixVector (bits_vec.go:682-734) *)
Definition xv_rawSize32 (v : suffixVector) : nat := 4 + 1 + 4 + 4 + bitsSize32 (bv_numBits (xv_bv v)).
Definition xv_size32 (v : suffixVector) : nat := align (xv_rawSize32 v).
Definition xv_write32 (v : suffixVector) : bytes :=
  put32 (bv_numBits (xv_bv v)) ++ [type_byte (xv_type v)] ++ put32 (xv_hashLen v) ++ put32 (xv_realLen v) ++
  u64SliceToBytes (bv_bits (xv_bv v)) ++ padding (xv_rawSize32 v).
Definition xv_read32 (buf : bytes) : res (suffixVector * bytes) :=
  nb <- getw buf ;;
  tb <- idx buf 4 ;;
  t <- byte_type tb ;;
  b1 <- slice_from buf 5 ;;
  hl <- getw b1 ;;
  b2 <- slice_from buf 9 ;;
  rl <- getw b2 ;;
  ' (ws, cursor) <-
    (if suffixType_eqb t NoneSuffix then Ok ([], 13)
     else ws <- slice buf 13 (13 + bitsSize32 nb) ;; Ok (bytesToU64Slice ws, 13 + bitsSize32 nb)) ;;
  rest <- slice_from buf (align cursor) ;;
  Ok (mkXV (mkBV nb ws) t hl rl, rest).

(** ** loudsDense (louds_dense.go:94-142) *)
Definition ld_rawSize32 (ld : loudsDense) : nat :=
  4 + rv_size32 (ld_label ld) + rv_size32 (ld_hasChild ld) + rv_size32 (ld_isPrefix ld) + xv_size32 (ld_suffixes ld) + pv_size32 (ld_prefix ld).
Definition ld_size32 (ld : loudsDense) : nat := align (ld_rawSize32 ld).
Definition ld_write32 (ld : loudsDense) : bytes :=
  put32 (ld_height ld) ++ rv_write32 (ld_label ld) ++ rv_write32 (ld_hasChild ld) ++ rv_write32 (ld_isPrefix ld) ++
  xv_write32 (ld_suffixes ld) ++ pv_write32 (ld_prefix ld) ++ padding (ld_rawSize32 ld).
Definition ld_read32 (buf : bytes) : res ((valueVector -> loudsDense) * bytes) :=
  h <- getw buf ;;
  b <- slice_from buf 4 ;;
  ' (label, b) <- rv_read32 b ;;
  ' (hasChild, b) <- rv_read32 b ;;
  ' (isPrefix, b) <- rv_read32 b ;;
  ' (suffixes, b) <- xv_read32 b ;;
  ' (prefix, b) <- pv_read32 b ;;
  rest <- slice_from buf (align (length buf - length b)) ;;
  Ok (fun values => mkLD label hasChild isPrefix suffixes values prefix h, rest).

(** ** loudsSparse (louds_sparse.go:104-171) *)
Definition ls_rawSize32 (ls : loudsSparse) : nat :=
  16 + lab_size (ls_label ls) + rv_size32 (ls_hasChild ls) + sv_size32 (ls_louds ls) + xv_size32 (ls_suffixes ls) + pv_size32 (ls_prefix ls).
Definition ls_size32 (ls : loudsSparse) : nat := align (ls_rawSize32 ls).
Definition ls_write32 (ls : loudsSparse) : bytes :=
  put32 (ls_height ls) ++ put32 (ls_startLevel ls) ++ put32 (ls_denseNodeCount ls) ++ put32 (ls_denseChildCount ls) ++
  lab_write (ls_label ls) ++ rv_write32 (ls_hasChild ls) ++ sv_write32 (ls_louds ls) ++ xv_write32 (ls_suffixes ls) ++
  pv_write32 (ls_prefix ls) ++ padding (ls_rawSize32 ls).
Definition ls_read32 (buf : bytes) : res ((valueVector -> loudsSparse) * bytes) :=
  height <- getw buf ;;
  b <- slice_from buf 4 ;;
  start <- getw b ;;
  b <- slice_from b 4 ;;
  dnc <- getw b ;;
  b <- slice_from b 4 ;;
  dcc <- getw b ;;
  b <- slice_from b 4 ;;
  ' (label, b) <- lab_read32 b ;;
  ' (hasChild, b) <- rv_read32 b ;;
  ' (louds, b) <- sv_read32 b ;;
  ' (suffixes, b) <- xv_read32 b ;;
  ' (prefix, b) <- pv_read32 b ;;
  rest <- slice_from buf (align (length buf - length b)) ;;
  Ok (fun values => mkLS height start dnc dcc label hasChild louds suffixes values prefix, rest).

(** ** SuRF (surf.go:44-84) *)
Definition marshalSize32 (s : surf) : nat :=
  ld_size32 (s_ld s) + ls_size32 (s_ls s) + vv_size (ld_values (s_ld s)) + vv_size (ls_values (s_ls s)).
Definition marshalNoValueSize32 (s : surf) : nat := ld_size32 (s_ld s) + ls_size32 (s_ls s).
Definition marshal32 (s : surf) : bytes :=
  ld_write32 (s_ld s) ++ ls_write32 (s_ls s) ++ vv_write (ld_values (s_ld s)) ++ vv_write (ls_values (s_ls s)).
Definition unmarshal32 (b : bytes) : res surf :=
  ' (ld, b) <- ld_read32 b ;;
  ' (ls, b) <- ls_read32 b ;;
  ' (dv, b) <- vv_read32 b ;;
  ' (sv, _) <- vv_read32 b ;;
  Ok (mkSurf (ld dv) (ls sv)).
