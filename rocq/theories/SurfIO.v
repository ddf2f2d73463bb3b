(** * Model of WriteTo with a writer that may fail, and of Unmarshal into a filter that
    already holds something.

    - An [io.Writer] is any state [W] with a function [write] that takes the bytes of one
      Write call and returns the new state and the error, if any.  The number of written
      bytes is ignored by the code and not modelled; a writer that writes less than it is
      given must return an error (io.Writer's contract).
    - Little-endian conversions and sizes are those of SurfMarshal.v. *)
From Verif Require Import Base BitsModel VecModel SurfModel SurfMarshal.

(* ------------------------------------------------------------------ *)
(** ** WriteTo *)
Section Writer.
Context {W Err : Type} (write : W -> bytes -> W * option Err).

(** [if _, err := w.Write(b); err != nil { return err }] and what follows it *)
Definition put (b : bytes) : W -> W * option Err := fun w => write w b.
Definition andThen (f g : W -> W * option Err) : W -> W * option Err := fun w =>
  match f w with
  | (w', None) => g w'
  | (w', Some e) => (w', Some e)
  end.
Infix ">>>" := andThen (at level 61, right associativity).

(** bits_vec.go:168-188 *)
Definition vv_writeTo (v : valueVector) :=
  put (put32 (length (vv_bytes v))) >>> put (put32 (vv_valueSize v)) >>> put (vv_bytes v) >>> put (padding (vv_rawSize v)).
(** bits_vec.go:285-306 *)
Definition sv_writeTo (v : selectVector) :=
  put (put32 (bv_numBits (sv_bv v))) >>> put (put32 (sv_numOnes v)) >>> put (u64SliceToBytes (bv_bits (sv_bv v))) >>>
  put (u32SliceToBytes (sv_lut v)) >>> put (padding (sv_rawSize v)).
(** bits_vec.go:364-385 *)
Definition rv_writeTo (v : rankVector) :=
  put (put32 (bv_numBits (rv_bv v))) >>> put (put32 (rv_blockSize v)) >>> put (u64SliceToBytes (bv_bits (rv_bv v))) >>>
  put (u32SliceToBytes (rv_lut v)) >>> put (padding (rv_rawSize v)).
(** bits_vec.go:496-510 *)
Definition lab_writeTo (l : bytes) :=
  put (put32 (length l)) >>> put l >>> put (padding (lab_rawSize l)).
(** bits_vec.go:568-591; the two lengths are written by one call *)
Definition pv_writeTo (v : prefixVec) :=
  rv_writeTo (pv_has v) >>> put (put32 (length (pv_offsets v)) ++ put32 (length (pv_data v))) >>>
  put (pv_offsets v) >>> put (pv_data v) >>> put (padding (pv_rawSize v)).
(** bits_vec.go:690-715 *)
Definition xv_writeTo (v : suffixVector) :=
  put (put32 (bv_numBits (xv_bv v))) >>> put [type_byte (xv_type v)] >>> put (put32 (xv_hashLen v)) >>>
  put (put32 (xv_realLen v)) >>> put (u64SliceToBytes (bv_bits (xv_bv v))) >>> put (padding (xv_rawSize v)).
(** louds_dense.go:102-129 *)
Definition ld_writeTo (ld : loudsDense) :=
  put (put32 (ld_height ld)) >>> rv_writeTo (ld_label ld) >>> rv_writeTo (ld_hasChild ld) >>> rv_writeTo (ld_isPrefix ld) >>>
  xv_writeTo (ld_suffixes ld) >>> pv_writeTo (ld_prefix ld) >>> put (padding (ld_rawSize ld)).
(** louds_sparse.go:112-150 *)
Definition ls_writeTo (ls : loudsSparse) :=
  put (put32 (ls_height ls)) >>> put (put32 (ls_startLevel ls)) >>> put (put32 (ls_denseNodeCount ls)) >>>
  put (put32 (ls_denseChildCount ls)) >>> lab_writeTo (ls_label ls) >>> rv_writeTo (ls_hasChild ls) >>>
  sv_writeTo (ls_louds ls) >>> xv_writeTo (ls_suffixes ls) >>> pv_writeTo (ls_prefix ls) >>> put (padding (ls_rawSize ls)).
(** surf.go:61-76 *)
Definition surf_writeTo (s : surf) :=
  ld_writeTo (s_ld s) >>> ls_writeTo (s_ls s) >>> vv_writeTo (ld_values (s_ld s)) >>> vv_writeTo (ls_values (s_ls s)).
End Writer.

(* ------------------------------------------------------------------ *)
(** ** Unmarshal into a used filter *)

(** bits_vec.go:717-734: every field is assigned, except that the suffix words are left as
    they were when the data says that there are no suffixes. *)
Definition xv_read_into (old : suffixVector) (buf : bytes) : res (suffixVector * bytes) :=
  nb <- get32 buf ;;
  tb <- idx buf 4 ;;
  t <- byte_type tb ;;
  b1 <- slice_from buf 5 ;;
  hl <- get32 b1 ;;
  b2 <- slice_from buf 9 ;;
  rl <- get32 b2 ;;
  ' (ws, cursor) <-
    (if suffixType_eqb t NoneSuffix then Ok (bv_bits (xv_bv old), 13)
     else ws <- slice buf 13 (13 + numWords nb * 8) ;; Ok (bytesToU64Slice ws, 13 + numWords nb * 8)) ;;
  rest <- slice_from buf (align cursor) ;;
  Ok (mkXV (mkBV nb ws) t hl rl, rest).

(** louds_dense.go:131-142; all other vectors are overwritten completely
    (bits_vec.go:190-202, 308-323, 387-402, 512-516, 593-606) *)
Definition ld_read_into (old : loudsDense) (buf : bytes) : res ((valueVector -> loudsDense) * bytes) :=
  h <- get32 buf ;;
  b <- slice_from buf 4 ;;
  ' (label, b) <- rv_read b ;;
  ' (hasChild, b) <- rv_read b ;;
  ' (isPrefix, b) <- rv_read b ;;
  ' (suffixes, b) <- xv_read_into (ld_suffixes old) b ;;
  ' (prefix, b) <- pv_read b ;;
  rest <- slice_from buf (align (length buf - length b)) ;;
  Ok (fun values => mkLD label hasChild isPrefix suffixes values prefix h, rest).

(** louds_sparse.go:152-171 *)
Definition ls_read_into (old : loudsSparse) (buf : bytes) : res ((valueVector -> loudsSparse) * bytes) :=
  height <- get32 buf ;;
  b <- slice_from buf 4 ;;
  start <- get32 b ;;
  b <- slice_from b 4 ;;
  dnc <- get32 b ;;
  b <- slice_from b 4 ;;
  dcc <- get32 b ;;
  b <- slice_from b 4 ;;
  ' (label, b) <- lab_read b ;;
  ' (hasChild, b) <- rv_read b ;;
  ' (louds, b) <- sv_read b ;;
  ' (suffixes, b) <- xv_read_into (ls_suffixes old) b ;;
  ' (prefix, b) <- pv_read b ;;
  rest <- slice_from buf (align (length buf - length b)) ;;
  Ok (fun values => mkLS height start dnc dcc label hasChild louds suffixes values prefix, rest).

(** surf.go:79-84 *)
Definition unmarshal_into (old : surf) (b : bytes) : res surf :=
  ' (ld, b) <- ld_read_into (s_ld old) b ;;
  ' (ls, b) <- ls_read_into (s_ls old) b ;;
  ' (dv, b) <- vv_read b ;;
  ' (sv, _) <- vv_read b ;;
  Ok (mkSurf (ld dv) (ls sv)).
