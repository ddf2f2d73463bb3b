(** * SurfBuf: Unmarshal as it uses the caller's buffer.

    Unmarshal copies the counts out of the buffer, but the vectors of the filter are slices of
    the buffer itself (bits.go:94-139 cast them without copying).  Here Unmarshal returns where
    those slices are, and a query at a time when the buffer holds [m] is one on the filter that
    [surf_view m] reads from those places.  The receiver is a zero SuRF, as in SurfMarshal.v,
    which is the same with copies; the length of the buffer is its capacity. *)
From Verif Require Import Base BitsModel VecModel SurfModel SurfMarshal.

(** A slice of the buffer. *)
Record ref := mkRef { r_off : nat; r_len : nat }.
Definition ref_bytes (m : bytes) (r : ref) : bytes := firstn (r_len r) (skipn (r_off r) m).
Definition ref_u64 (m : bytes) (r : ref) : list N := bytesToU64Slice (ref_bytes m r).
Definition ref_u32 (m : bytes) (r : ref) : list nat := bytesToU32Slice (ref_bytes m r).

(** [buf] is always [m[o:]].  [buf[a:b]] and [buf[k:]]: *)
Definition sliceR (m : bytes) (o a b : nat) : res ref :=
  if Nat.leb a b && Nat.leb b (length m - o) then Ok (mkRef (o + a) (b - a)) else Panic.
Definition fromR (m : bytes) (o k : nat) : res nat := if Nat.leb k (length m - o) then Ok (o + k) else Panic.

(** ** bits_vec.go *)
Record vvR := mkVVR { qv_bytes : ref; qv_valueSize : nat }.
Definition vv_view (m : bytes) (v : vvR) : valueVector := mkVV (ref_bytes m (qv_bytes v)) (qv_valueSize v).
(** bits_vec.go:190-202 *)
Definition vv_readR (m : bytes) (o : nat) : res (vvR * nat) :=
  sz <- get32 (skipn o m) ;;
  b1 <- fromR m o 4 ;;
  vs <- get32 (skipn b1 m) ;;
  bs <- sliceR m o 8 (8 + sz) ;;
  rest <- fromR m o (align (8 + sz)) ;;
  Ok (mkVVR bs vs, rest).

Record svR := mkSVR { qs_numBits : nat; qs_numOnes : nat; qs_bits : ref; qs_lut : ref }.
Definition sv_view (m : bytes) (v : svR) : selectVector :=
  mkSV (mkBV (qs_numBits v) (ref_u64 m (qs_bits v))) (qs_numOnes v) (ref_u32 m (qs_lut v)).
(** bits_vec.go:308-323 *)
Definition sv_readR (m : bytes) (o : nat) : res (svR * nat) :=
  nb <- get32 (skipn o m) ;;
  b1 <- fromR m o 4 ;;
  no <- get32 (skipn b1 m) ;;
  let bitsSz := numWords nb * 8 in
  ws <- sliceR m o 8 (8 + bitsSz) ;;
  let lutSz := (no / 64 + 1) * 4 in
  lut <- sliceR m o (8 + bitsSz) (8 + bitsSz + lutSz) ;;
  rest <- fromR m o (align (8 + bitsSz + lutSz)) ;;
  Ok (mkSVR nb no ws lut, rest).

Record rvR := mkRVR { qr_numBits : nat; qr_blockSize : nat; qr_bits : ref; qr_lut : ref }.
Definition rv_view (m : bytes) (v : rvR) : rankVector :=
  mkRV (mkBV (qr_numBits v) (ref_u64 m (qr_bits v))) (qr_blockSize v) (ref_u32 m (qr_lut v)).
(** bits_vec.go:387-402 *)
Definition rv_readR (m : bytes) (o : nat) : res (rvR * nat) :=
  nb <- get32 (skipn o m) ;;
  b1 <- fromR m o 4 ;;
  blk <- get32 (skipn b1 m) ;;
  let bitsSz := numWords nb * 8 in
  ws <- sliceR m o 8 (8 + bitsSz) ;;
  if Nat.eqb blk 0 then Panic else
  let lutSz := (nb / blk + 1) * 4 in
  lut <- sliceR m o (8 + bitsSz) (8 + bitsSz + lutSz) ;;
  rest <- fromR m o (align (8 + bitsSz + lutSz)) ;;
  Ok (mkRVR nb blk ws lut, rest).
(** bits_vec.go:352-362 MarshalSize, which reads only the counts *)
Definition qr_size (v : rvR) : nat :=
  align (4 + 4 + numWords (qr_numBits v) * 8 + (qr_numBits v / qr_blockSize v + 1) * 4).

(** bits_vec.go:512-516 *)
Definition lab_readR (m : bytes) (o : nat) : res (ref * nat) :=
  n <- get32 (skipn o m) ;;
  l <- sliceR m o 4 (4 + n) ;;
  rest <- fromR m o (align (4 + n)) ;;
  Ok (l, rest).

Record pvR := mkPVR { qp_has : rvR; qp_offsets : ref; qp_data : ref }.
Definition pv_view (m : bytes) (v : pvR) : prefixVec := mkPV (rv_view m (qp_has v)) (ref_bytes m (qp_offsets v)) (ref_bytes m (qp_data v)).
(** bits_vec.go:593-614 *)
Definition pv_readR (m : bytes) (o : nat) : res (pvR * nat) :=
  ' (has, o1) <- rv_readR m o ;;
  ol <- get32 (skipn o1 m) ;;
  b2 <- fromR m o1 4 ;;
  dl <- get32 (skipn b2 m) ;;
  os <- sliceR m o1 8 (8 + ol) ;;
  ds <- sliceR m o1 (8 + ol) (8 + ol + dl) ;;
  rest <- fromR m o (align (qr_size has + 8 + (r_len os + r_len ds))) ;;
  Ok (mkPVR has os ds, rest).

(** A filter without suffixes has no suffix words; [None] is the nil slice. *)
Record xvR := mkXVR { qx_numBits : nat; qx_bits : option ref; qx_type : SuffixType; qx_hashLen : nat; qx_realLen : nat }.
Definition xv_view (m : bytes) (v : xvR) : suffixVector :=
  mkXV (mkBV (qx_numBits v) (match qx_bits v with Some r => ref_u64 m r | None => [] end)) (qx_type v) (qx_hashLen v) (qx_realLen v).
(** bits_vec.go:717-734 *)
Definition xv_readR (m : bytes) (o : nat) : res (xvR * nat) :=
  nb <- get32 (skipn o m) ;;
  tb <- idx (skipn o m) 4 ;;
  t <- byte_type tb ;;
  b1 <- fromR m o 5 ;;
  hl <- get32 (skipn b1 m) ;;
  b2 <- fromR m o 9 ;;
  rl <- get32 (skipn b2 m) ;;
  ' (ws, cursor) <-
    (if suffixType_eqb t NoneSuffix then Ok (None, 13)
     else ws <- sliceR m o 13 (13 + numWords nb * 8) ;; Ok (Some ws, 13 + numWords nb * 8)) ;;
  rest <- fromR m o (align cursor) ;;
  Ok (mkXVR nb ws t hl rl, rest).

(** ** louds_dense.go, louds_sparse.go *)
Record ldR := mkLDR { qd_label : rvR; qd_hasChild : rvR; qd_isPrefix : rvR; qd_suffixes : xvR; qd_prefix : pvR; qd_height : nat }.
Definition ld_view (m : bytes) (l : ldR) (values : valueVector) : loudsDense :=
  mkLD (rv_view m (qd_label l)) (rv_view m (qd_hasChild l)) (rv_view m (qd_isPrefix l)) (xv_view m (qd_suffixes l)) values (pv_view m (qd_prefix l)) (qd_height l).
(** louds_dense.go:131-142 *)
Definition ld_readR (m : bytes) (o : nat) : res (ldR * nat) :=
  h <- get32 (skipn o m) ;;
  b <- fromR m o 4 ;;
  ' (label, b) <- rv_readR m b ;;
  ' (hasChild, b) <- rv_readR m b ;;
  ' (isPrefix, b) <- rv_readR m b ;;
  ' (suffixes, b) <- xv_readR m b ;;
  ' (prefix, b) <- pv_readR m b ;;
  rest <- fromR m o (align ((length m - o) - (length m - b))) ;;
  Ok (mkLDR label hasChild isPrefix suffixes prefix h, rest).

Record lsR := mkLSR { qe_height : nat; qe_startLevel : nat; qe_denseNodeCount : nat; qe_denseChildCount : nat;
  qe_label : ref; qe_hasChild : rvR; qe_louds : svR; qe_suffixes : xvR; qe_prefix : pvR }.
Definition ls_view (m : bytes) (l : lsR) (values : valueVector) : loudsSparse :=
  mkLS (qe_height l) (qe_startLevel l) (qe_denseNodeCount l) (qe_denseChildCount l) (ref_bytes m (qe_label l)) (rv_view m (qe_hasChild l))
    (sv_view m (qe_louds l)) (xv_view m (qe_suffixes l)) values (pv_view m (qe_prefix l)).
(** louds_sparse.go:152-171 *)
Definition ls_readR (m : bytes) (o : nat) : res (lsR * nat) :=
  height <- get32 (skipn o m) ;;
  b <- fromR m o 4 ;;
  start <- get32 (skipn b m) ;;
  b <- fromR m b 4 ;;
  dnc <- get32 (skipn b m) ;;
  b <- fromR m b 4 ;;
  dcc <- get32 (skipn b m) ;;
  b <- fromR m b 4 ;;
  ' (label, b) <- lab_readR m b ;;
  ' (hasChild, b) <- rv_readR m b ;;
  ' (louds, b) <- sv_readR m b ;;
  ' (suffixes, b) <- xv_readR m b ;;
  ' (prefix, b) <- pv_readR m b ;;
  rest <- fromR m o (align ((length m - o) - (length m - b))) ;;
  Ok (mkLSR height start dnc dcc label hasChild louds suffixes prefix, rest).

(** ** surf.go:79-84 *)
Record surfR := mkSurfR { qf_ld : ldR; qf_ls : lsR; qf_dv : vvR; qf_sv : vvR }.
Definition unmarshalR (m : bytes) : res surfR :=
  ' (ld, b) <- ld_readR m 0 ;;
  ' (ls, b) <- ls_readR m b ;;
  ' (dv, b) <- vv_readR m b ;;
  ' (sv, _) <- vv_readR m b ;;
  Ok (mkSurfR ld ls dv sv).
(** The filter that the methods see while the buffer holds [m]. *)
Definition surf_view (m : bytes) (f : surfR) : surf :=
  mkSurf (ld_view m (qf_ld f) (vv_view m (qf_dv f))) (ls_view m (qf_ls f) (vv_view m (qf_sv f))).
