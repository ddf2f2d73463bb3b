(** * SurfBufVal: the values that Get and Value return after Unmarshal.

    A value is a slice of the filter's array of values (bits_vec.go:155-158), and after
    Unmarshal that array is itself a slice of the caller's buffer (bits_vec.go:190-202).  No
    slice expression on the way limits the capacity, so the capacity of a returned value
    reaches to the end of the buffer (whose length is its capacity here, as in SurfBuf.v). *)
From Verif Require Import Base BitsModel VecModel SurfModel SurfIter SurfMarshal SurfAlias SurfBuf.

(** Where the two arrays of values are. *)
Definition part_ref (f : surfR) (p : part) : ref :=
  match p with DensePart => qv_bytes (qf_dv f) | SparsePart => qv_bytes (qf_sv f) end.
(** bits_vec.go:155-158: the slice of an array of values, as a slice of the buffer. *)
Definition in_buf (f : surfR) (sl : vslice) : ref := mkRef (r_off (part_ref f (sl_part sl)) + sl_off sl) (sl_len sl).

(** surf.go:15-21 Get *)
Definition buf_get (fingerprint64 : bytes -> N) (m : bytes) (f : surfR) (key : bytes) : res (option ref) :=
  sl <- surf_slice fingerprint64 (surf_view m f) key ;; Ok (option_map (in_buf f) sl).
(** surf.go:195-201 Value *)
Definition buf_value (m : bytes) (f : surfR) (it : iter) : res ref :=
  sl <- it_slice (surf_view m f) it ;; Ok (in_buf f sl).

(** Go [v[j] = b] by the caller: the buffer afterwards. *)
Definition buf_store (m : bytes) (v : ref) (j : nat) (b : byte) : res bytes :=
  if Nat.ltb j (r_len v) then Ok (overwrite m (r_off v + j) [b]) else Panic.
(** Go [append(v, xs...)] by the caller: the buffer afterwards. *)
Definition buf_append (m : bytes) (v : ref) (xs : bytes) : bytes :=
  if Nat.leb (r_len v + length xs) (length m - r_off v) then overwrite m (r_off v + r_len v) xs else m.
