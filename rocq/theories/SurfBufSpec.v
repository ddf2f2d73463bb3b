(** * SurfBufSpec: which bytes of the buffer a filter uses after Unmarshal. *)
From Verif Require Import Base SurfModel SurfBuf.

Definition rv_refs (v : rvR) : list ref := [qr_bits v; qr_lut v].
Definition sv_refs (v : svR) : list ref := [qs_bits v; qs_lut v].
Definition xv_refs (v : xvR) : list ref := match qx_bits v with Some r => [r] | None => [] end.
Definition pv_refs (v : pvR) : list ref := rv_refs (qp_has v) ++ [qp_offsets v; qp_data v].
Definition refs (f : surfR) : list ref :=
  rv_refs (qd_label (qf_ld f)) ++ rv_refs (qd_hasChild (qf_ld f)) ++ rv_refs (qd_isPrefix (qf_ld f)) ++ xv_refs (qd_suffixes (qf_ld f)) ++ pv_refs (qd_prefix (qf_ld f)) ++
  [qe_label (qf_ls f)] ++ rv_refs (qe_hasChild (qf_ls f)) ++ sv_refs (qe_louds (qf_ls f)) ++ xv_refs (qe_suffixes (qf_ls f)) ++ pv_refs (qe_prefix (qf_ls f)) ++
  [qv_bytes (qf_dv f); qv_bytes (qf_sv f)].
(** Byte [i] of the buffer is in one of the filter's slices. *)
Definition in_use (f : surfR) (i : nat) : Prop := exists r, In r (refs f) /\ r_off r <= i < r_off r + r_len r.
