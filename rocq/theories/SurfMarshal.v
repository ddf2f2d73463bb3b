(** * Model of the serialization of a SuRF: MarshalSize, MarshalNoValueSize, Marshal/WriteTo
    and Unmarshal of surf.go, louds_dense.go, louds_sparse.go and bits_vec.go.

    - [w.Write] appends to a byte list and never fails (Marshal writes to a bytes.Buffer;
      WriteTo with a failing writer is not modelled).
    - The unsafe conversions of bits.go:94-139 reinterpret memory: the machine is taken to
      be little-endian, and aliasing of the input buffer is not modelled (the vectors of an
      unmarshalled filter are copies here, which agrees as long as nobody writes to the buffer).
    - Sizes are unbounded [nat]; uint32 fields truncate when written ([put32]). *)
From Verif Require Import Base BitsModel VecModel SurfModel.

(** bits.go:94-104 u64SliceToBytes, bits.go:118-128 u32SliceToBytes *)
Fixpoint put_le (n : nat) (w : N) : bytes :=
  match n with O => [] | S n' => N.to_nat (w mod 256) :: put_le n' (w / 256)%N end.
Definition u64SliceToBytes (ws : list N) : bytes := flat_map (put_le 8) ws.
Definition u32SliceToBytes (l : list nat) : bytes := flat_map put32 l.

(** bits.go:106-117 bytesToU64Slice, bits.go:130-139 bytesToU32Slice: [len(b)/8] (or 4) entries. *)
Fixpoint get_le (b : bytes) : N :=
  match b with [] => 0%N | x :: r => (N.of_nat x + 256 * get_le r)%N end.
Fixpoint chunks {A} (n : nat) (f : bytes -> A) (size : nat) (b : bytes) : list A :=
  match n with O => [] | S n' => f (firstn size b) :: chunks n' f size (skipn size b) end.
Definition bytesToU64Slice (b : bytes) : list N := chunks (length b / 8) get_le 8 b.
Definition le4 (b : bytes) : nat := match get32 b with Ok n => n | _ => 0 end.
Definition bytesToU32Slice (b : bytes) : list nat := chunks (length b / 4) le4 4 b.

(** [zeros[:padding]] with padding = align(raw) - raw *)
Definition padding (raw : nat) : bytes := repeat 0 (align raw - raw).

(* ------------------------------------------------------------------ *)
(** ** valueVector (bits_vec.go:160-202) *)
Definition vv_rawSize (v : valueVector) : nat := 8 + length (vv_bytes v).
Definition vv_size (v : valueVector) : nat := align (vv_rawSize v).
Definition vv_write (v : valueVector) : bytes :=
  put32 (length (vv_bytes v)) ++ put32 (vv_valueSize v) ++ vv_bytes v ++ padding (vv_rawSize v).
Definition vv_read (buf : bytes) : res (valueVector * bytes) :=
  sz <- get32 buf ;;
  b1 <- slice_from buf 4 ;;
  vs <- get32 b1 ;;
  bs <- slice buf 8 (8 + sz) ;;
  rest <- slice_from buf (align (8 + sz)) ;;
  Ok (mkVV bs vs, rest).

(** ** selectVector (bits_vec.go:237-242, 277-323) *)
Definition sv_lutSize (v : selectVector) : nat := (sv_numOnes v / 64 + 1) * 4.
Definition sv_rawSize (v : selectVector) : nat := 4 + 4 + bitsSize (sv_bv v) + sv_lutSize v.
Definition sv_size (v : selectVector) : nat := align (sv_rawSize v).
Definition sv_write (v : selectVector) : bytes :=
  put32 (bv_numBits (sv_bv v)) ++ put32 (sv_numOnes v) ++ u64SliceToBytes (bv_bits (sv_bv v)) ++
  u32SliceToBytes (sv_lut v) ++ padding (sv_rawSize v).
Definition sv_read (buf : bytes) : res (selectVector * bytes) :=
  nb <- get32 buf ;;
  b1 <- slice_from buf 4 ;;
  no <- get32 b1 ;;
  let bitsSz := numWords nb * 8 in
  ws <- slice buf 8 (8 + bitsSz) ;;
  let lutSz := (no / 64 + 1) * 4 in
  lut <- slice buf (8 + bitsSz) (8 + bitsSz + lutSz) ;;
  rest <- slice_from buf (align (8 + bitsSz + lutSz)) ;;
  Ok (mkSV (mkBV nb (bytesToU64Slice ws)) no (bytesToU32Slice lut), rest).

(** ** rankVector (bits_vec.go:352-400).  A zero block size makes the division panic: on
    reading this is the [Panic] branch; on writing it cannot arise from Build. *)
Definition rv_lutSize (v : rankVector) : nat := (bv_numBits (rv_bv v) / rv_blockSize v + 1) * 4.
Definition rv_rawSize (v : rankVector) : nat := 4 + 4 + bitsSize (rv_bv v) + rv_lutSize v.
Definition rv_size (v : rankVector) : nat := align (rv_rawSize v).
Definition rv_write (v : rankVector) : bytes :=
  put32 (bv_numBits (rv_bv v)) ++ put32 (rv_blockSize v) ++ u64SliceToBytes (bv_bits (rv_bv v)) ++
  u32SliceToBytes (rv_lut v) ++ padding (rv_rawSize v).
Definition rv_read (buf : bytes) : res (rankVector * bytes) :=
  nb <- get32 buf ;;
  b1 <- slice_from buf 4 ;;
  blk <- get32 b1 ;;
  let bitsSz := numWords nb * 8 in
  ws <- slice buf 8 (8 + bitsSz) ;;
  if Nat.eqb blk 0 then Panic else
  let lutSz := (nb / blk + 1) * 4 in
  lut <- slice buf (8 + bitsSz) (8 + bitsSz + lutSz) ;;
  rest <- slice_from buf (align (8 + bitsSz + lutSz)) ;;
  Ok (mkRV (mkBV nb (bytesToU64Slice ws)) blk (bytesToU32Slice lut), rest).

(** ** labelVector (bits_vec.go:488-516) *)
Definition lab_rawSize (l : bytes) : nat := 4 + length l.
Definition lab_size (l : bytes) : nat := align (lab_rawSize l).
Definition lab_write (l : bytes) : bytes := put32 (length l) ++ l ++ padding (lab_rawSize l).
Definition lab_read (buf : bytes) : res (bytes * bytes) :=
  n <- get32 buf ;;
  l <- slice buf 4 (4 + n) ;;
  rest <- slice_from buf (align (4 + n)) ;;
  Ok (l, rest).

(** ** prefixVec (bits_vec.go:568-614) *)
Definition pv_rawSize (v : prefixVec) : nat := rv_size (pv_has v) + 8 + (length (pv_offsets v) + length (pv_data v)).
Definition pv_size (v : prefixVec) : nat := align (pv_rawSize v).
Definition pv_write (v : prefixVec) : bytes :=
  rv_write (pv_has v) ++ put32 (length (pv_offsets v)) ++ put32 (length (pv_data v)) ++ pv_offsets v ++ pv_data v ++
  padding (pv_rawSize v).
Definition pv_read (b : bytes) : res (prefixVec * bytes) :=
  ' (has, buf1) <- rv_read b ;;
  ol <- get32 buf1 ;;
  b2 <- slice_from buf1 4 ;;
  dl <- get32 b2 ;;
  os <- slice buf1 8 (8 + ol) ;;
  ds <- slice buf1 (8 + ol) (8 + ol + dl) ;;
  let v := mkPV has os ds in
  rest <- slice_from b (pv_size v) ;;
  Ok (v, rest).

(** ** suffixVector (bits_vec.go:682-734); builder.go:6-15 for the numbers of the types.
    Reading converts any byte to a SuffixType; bytes above 3 name no type and are modelled
    as [Panic] (Marshal never writes one). *)
Definition type_byte (t : SuffixType) : byte :=
  match t with NoneSuffix => 0 | HashSuffix => 1 | RealSuffix => 2 | MixedSuffix => 3 end.
Definition byte_type (b : byte) : res SuffixType :=
  match b with 0 => Ok NoneSuffix | 1 => Ok HashSuffix | 2 => Ok RealSuffix | 3 => Ok MixedSuffix | _ => Panic end.
Definition xv_rawSize (v : suffixVector) : nat := 4 + 1 + 4 + 4 + bitsSize (xv_bv v).
Definition xv_size (v : suffixVector) : nat := align (xv_rawSize v).
Definition xv_write (v : suffixVector) : bytes :=
  put32 (bv_numBits (xv_bv v)) ++ [type_byte (xv_type v)] ++ put32 (xv_hashLen v) ++ put32 (xv_realLen v) ++
  u64SliceToBytes (bv_bits (xv_bv v)) ++ padding (xv_rawSize v).
Definition xv_read (buf : bytes) : res (suffixVector * bytes) :=
  nb <- get32 buf ;;
  tb <- idx buf 4 ;;
  t <- byte_type tb ;;
  b1 <- slice_from buf 5 ;;
  hl <- get32 b1 ;;
  b2 <- slice_from buf 9 ;;
  rl <- get32 b2 ;;
  ' (ws, cursor) <-
    (if suffixType_eqb t NoneSuffix then Ok ([], 13)
     else ws <- slice buf 13 (13 + numWords nb * 8) ;; Ok (bytesToU64Slice ws, 13 + numWords nb * 8)) ;;
  rest <- slice_from buf (align cursor) ;;
  Ok (mkXV (mkBV nb ws) t hl rl, rest).

(* ------------------------------------------------------------------ *)
(** ** loudsDense (louds_dense.go:94-142).  The values are not part of it. *)
Definition ld_rawSize (ld : loudsDense) : nat :=
  4 + rv_size (ld_label ld) + rv_size (ld_hasChild ld) + rv_size (ld_isPrefix ld) + xv_size (ld_suffixes ld) + pv_size (ld_prefix ld).
Definition ld_size (ld : loudsDense) : nat := align (ld_rawSize ld).
Definition ld_write (ld : loudsDense) : bytes :=
  put32 (ld_height ld) ++ rv_write (ld_label ld) ++ rv_write (ld_hasChild ld) ++ rv_write (ld_isPrefix ld) ++
  xv_write (ld_suffixes ld) ++ pv_write (ld_prefix ld) ++ padding (ld_rawSize ld).
(** The result still lacks the values, which Unmarshal of surf.go reads last. *)
Definition ld_read (buf : bytes) : res ((valueVector -> loudsDense) * bytes) :=
  h <- get32 buf ;;
  b <- slice_from buf 4 ;;
  ' (label, b) <- rv_read b ;;
  ' (hasChild, b) <- rv_read b ;;
  ' (isPrefix, b) <- rv_read b ;;
  ' (suffixes, b) <- xv_read b ;;
  ' (prefix, b) <- pv_read b ;;
  rest <- slice_from buf (align (length buf - length b)) ;;
  Ok (fun values => mkLD label hasChild isPrefix suffixes values prefix h, rest).

(** ** loudsSparse (louds_sparse.go:104-171) *)
Definition ls_rawSize (ls : loudsSparse) : nat :=
  16 + lab_size (ls_label ls) + rv_size (ls_hasChild ls) + sv_size (ls_louds ls) + xv_size (ls_suffixes ls) + pv_size (ls_prefix ls).
Definition ls_size (ls : loudsSparse) : nat := align (ls_rawSize ls).
Definition ls_write (ls : loudsSparse) : bytes :=
  put32 (ls_height ls) ++ put32 (ls_startLevel ls) ++ put32 (ls_denseNodeCount ls) ++ put32 (ls_denseChildCount ls) ++
  lab_write (ls_label ls) ++ rv_write (ls_hasChild ls) ++ sv_write (ls_louds ls) ++ xv_write (ls_suffixes ls) ++
  pv_write (ls_prefix ls) ++ padding (ls_rawSize ls).
Definition ls_read (buf : bytes) : res ((valueVector -> loudsSparse) * bytes) :=
  height <- get32 buf ;;
  b <- slice_from buf 4 ;;
  start <- get32 b ;;
  b <- slice_from b 4 ;;
  dnc <- get32 b ;;
  b <- slice_from b 4 ;;
  dcc <- get32 b ;;
  b <- slice_from b 4 ;;
  ' (label, b) <- lab_read b ;;
  ' (hasChild, b) <- rv_read b ;;
  ' (louds, b) <- sv_read b ;;
  ' (suffixes, b) <- xv_read b ;;
  ' (prefix, b) <- pv_read b ;;
  rest <- slice_from buf (align (length buf - length b)) ;;
  Ok (fun values => mkLS height start dnc dcc label hasChild louds suffixes values prefix, rest).

(* ------------------------------------------------------------------ *)
(** ** SuRF (surf.go:44-84) *)
Definition marshalSize (s : surf) : nat :=
  ld_size (s_ld s) + ls_size (s_ls s) + vv_size (ld_values (s_ld s)) + vv_size (ls_values (s_ls s)).
Definition marshalNoValueSize (s : surf) : nat := ld_size (s_ld s) + ls_size (s_ls s).
(** surf.go:54-76 Marshal and WriteTo *)
Definition marshal (s : surf) : bytes :=
  ld_write (s_ld s) ++ ls_write (s_ls s) ++ vv_write (ld_values (s_ld s)) ++ vv_write (ls_values (s_ls s)).
(** surf.go:79-84 Unmarshal into a zero SuRF *)
Definition unmarshal (b : bytes) : res surf :=
  ' (ld, b) <- ld_read b ;;
  ' (ls, b) <- ls_read b ;;
  ' (dv, b) <- vv_read b ;;
  ' (sv, _) <- vv_read b ;;
  Ok (mkSurf (ld dv) (ls sv)).
