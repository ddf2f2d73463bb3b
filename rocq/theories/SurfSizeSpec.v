(** * How much space a filter takes, counted on its fields.

    The bits of the trie proper: labels, child flags, node boundaries, prefix-key flags,
    suffixes, path prefixes and their flags.  Rank and select tables, section headers,
    padding and the values are not counted. *)
From Verif Require Import Base BitsModel VecModel SurfModel.

Definition suffix_bits (x : suffixVector) : nat := bv_numBits (xv_bv x).
Definition prefix_bits (p : prefixVec) : nat := bv_numBits (rv_bv (pv_has p)) + 8 * length (pv_data p).
Definition dense_bits (d : loudsDense) : nat :=
  bv_numBits (rv_bv (ld_label d)) + bv_numBits (rv_bv (ld_hasChild d)) + bv_numBits (rv_bv (ld_isPrefix d)) +
  suffix_bits (ld_suffixes d) + prefix_bits (ld_prefix d).
Definition sparse_bits (l : loudsSparse) : nat :=
  8 * length (ls_label l) + bv_numBits (rv_bv (ls_hasChild l)) + bv_numBits (sv_bv (ls_louds l)) +
  suffix_bits (ls_suffixes l) + prefix_bits (ls_prefix l).
Definition encoded_bits (s : surf) : nat := dense_bits (s_ld s) + sparse_bits (s_ls s).
