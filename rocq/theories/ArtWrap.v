(** * ArtWrap: the machine of ArtFine.v with version words of 64 bits.

    node.go:42 and lock.go: the version word is a uint64, and the compare-and-swaps and adds
    on it wrap around.  In ArtFine.v it is an unbounded number. *)
From Verif Require Import Base BitsModel VecModel ArtNode ArtModel ArtSpec ArtConc ArtFine.

(** Every version word modulo 2^64. *)
Definition wrap_cell (c : cell) : cell := mkCell (w64 (c_ver c)) (c_node c).
Definition wrap (m : mem) : mem := mkMem (map wrap_cell (m_cells m)) (m_root m).

(** One step of a goroutine; nothing but the word it stores is different. *)
Definition wgo (first : bool) (m : mem) (x : ft) : option (mem * ft) :=
  match fgo first m x with Some (m', x') => Some (wrap m', x') | None => None end.

Inductive wstep (s : fsys) : ev -> fsys -> Prop :=
  | wst_call t o : fs_thr s t = TAt PIdle -> valid_op o ->
      wstep s (ECall t o) (mkFS (fs_mem s) (fupd (fs_thr s) t (TAt (PStart o))))
  | wst_ret t o r : fs_thr s t = TAt (PRet o r) ->
      wstep s (ERet t r) (mkFS (fs_mem s) (fupd (fs_thr s) t (TAt PIdle)))
  | wst_tau t first m' x' : wgo first (fs_mem s) (fs_thr s t) = Some (m', x') ->
      wstep s (ETau t) (mkFS m' (fupd (fs_thr s) t x')).

Inductive wexec : list ev -> fsys -> Prop :=
  | wexec_nil : wexec [] finit
  | wexec_step h s e s' : wexec h s -> wstep s e s' -> wexec (h ++ [e]) s'.

(** Fewer than 2^62 events (steps, calls and returns of all goroutines) happen while any one
    operation runs. *)
Definition brisk (h : list ev) : Prop :=
  forall h1 t o h2 h3, h = h1 ++ ECall t o :: h2 ++ h3 -> (forall x, ~ In (ERet t x) h2) -> (N.of_nat (length h2) < 2 ^ 62)%N.
