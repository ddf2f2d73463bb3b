(** * Model of surf/builder.go, the Init/Get parts of louds_dense.go and louds_sparse.go,
    and SuRF.Get of surf.go.

    Simplifications (all recorded in DESIGN.md):
    - the builder's parallel per-level slices are one list of level records (they are
      always extended together by addLevel);
    - uint32 counters are unbounded [nat]; a subtraction that would wrap below zero is
      [sub_chk], which reports [Panic] (no theorem relies on a wrapped value);
    - recursion carries fuel, [Hang] when it runs out. *)
From Verif Require Import Base BitsModel VecModel.

(** A key with its value. *)
Notation kv := (prod (list nat) (list nat)) (only parsing).

(** Checked uint32 subtraction. *)
Definition sub_chk (a b : nat) : res nat := if Nat.leb b a then Ok (a - b) else Panic.

(* ------------------------------------------------------------------ *)
(** ** Builder (builder.go:30-86) *)

(** builder.go:38-64: the state of one level. *)
Record level := mkLevel {
  lv_labels : bytes;            (* lsLabels *)
  lv_hasChild : list N;         (* lsHasChild *)
  lv_louds : list N;            (* lsLoudsBits *)
  lv_suffixes : list N;
  lv_suffixCount : nat;
  lv_values : bytes;
  lv_valueCount : nat;
  lv_hasPrefix : list N;
  lv_prefixes : list bytes;
  lv_nodeCount : nat;
  lv_lastTerm : bool            (* isLastItemTerminator *)
}.

(** builder.go:33-65 *)
Record builder := mkBuilder {
  b_sparseStart : nat;
  b_valueSize : nat;
  b_totalCount : nat;
  b_levels : list level;
  b_ldLabels : list (list N);
  b_ldHasChild : list (list N);
  b_ldIsPrefix : list (list N);
  b_type : SuffixType;
  b_hashLen : nat;
  b_realLen : nat
}.

(** builder.go:68-86 NewBuilder *)
Definition newBuilder (valueSize hashLen realLen : nat) : builder :=
  let t := if Nat.eqb hashLen 0 && Nat.eqb realLen 0 then NoneSuffix
           else if Nat.eqb hashLen 0 then RealSuffix
           else if Nat.eqb realLen 0 then HashSuffix
           else MixedSuffix in
  mkBuilder 0 valueSize 0 [] [] [] [] t hashLen realLen.

(** builder.go:209-227 addLevel: the appended level. *)
Definition emptyLevel : level := mkLevel [] [0%N] [0%N] [] 0 [] 0 [0%N] [] 0 false.

Definition set_labels lv x := mkLevel x (lv_hasChild lv) (lv_louds lv) (lv_suffixes lv) (lv_suffixCount lv) (lv_values lv) (lv_valueCount lv) (lv_hasPrefix lv) (lv_prefixes lv) (lv_nodeCount lv) (lv_lastTerm lv).
Definition set_bits lv h l := mkLevel (lv_labels lv) h l (lv_suffixes lv) (lv_suffixCount lv) (lv_values lv) (lv_valueCount lv) (lv_hasPrefix lv) (lv_prefixes lv) (lv_nodeCount lv) (lv_lastTerm lv).
Definition set_suffixes lv s n := mkLevel (lv_labels lv) (lv_hasChild lv) (lv_louds lv) s n (lv_values lv) (lv_valueCount lv) (lv_hasPrefix lv) (lv_prefixes lv) (lv_nodeCount lv) (lv_lastTerm lv).
Definition set_values lv v n := mkLevel (lv_labels lv) (lv_hasChild lv) (lv_louds lv) (lv_suffixes lv) (lv_suffixCount lv) v n (lv_hasPrefix lv) (lv_prefixes lv) (lv_nodeCount lv) (lv_lastTerm lv).
Definition set_prefix lv h p := mkLevel (lv_labels lv) (lv_hasChild lv) (lv_louds lv) (lv_suffixes lv) (lv_suffixCount lv) (lv_values lv) (lv_valueCount lv) h p (lv_nodeCount lv) (lv_lastTerm lv).
Definition set_nodeCount lv n h := mkLevel (lv_labels lv) (lv_hasChild lv) (lv_louds lv) (lv_suffixes lv) (lv_suffixCount lv) (lv_values lv) (lv_valueCount lv) h (lv_prefixes lv) n (lv_lastTerm lv).
Definition set_lastTerm lv b := mkLevel (lv_labels lv) (lv_hasChild lv) (lv_louds lv) (lv_suffixes lv) (lv_suffixCount lv) (lv_values lv) (lv_valueCount lv) (lv_hasPrefix lv) (lv_prefixes lv) (lv_nodeCount lv) b.

(** builder.go:205-207 numItems *)
Definition numItems (lv : level) : nat := length (lv_labels lv).

(** builder.go:229-234 moveToNextItemSlot *)
Definition moveToNextItemSlot (lv : level) : level :=
  if Nat.eqb (numItems lv mod 64) 0
  then set_bits lv (lv_hasChild lv ++ [0%N]) (lv_louds lv ++ [0%N]) else lv.

(** The configuration part of the builder used while adding nodes. *)
Record config := mkConfig { c_valueSize : nat; c_type : SuffixType; c_hashLen : nat; c_realLen : nat }.
Definition c_suffixLen (c : config) : nat := c_hashLen c + c_realLen c.   (* builder.go:197-199 *)

Section Hash.
Variable fingerprint64 : bytes -> N.   (* go-farm Fingerprint64 *)

(** builder.go:236-255 insertSuffix (the level exists whenever it is called) *)
Definition insertSuffix (c : config) (key : bytes) (depth : nat) (lv : level) : res level :=
  suffix <- constructSuffix fingerprint64 key (depth + 1) (c_type c) (c_realLen c) (c_hashLen c) ;;
  let suffixLen := c_suffixLen c in
  let pos := lv_suffixCount lv * suffixLen in
  let ss := if Nat.eqb pos (length (lv_suffixes lv) * 64) then lv_suffixes lv ++ [0%N] else lv_suffixes lv in
  let wordID := pos / 64 in
  let offset := pos mod 64 in
  let remain := 64 - offset in
  ss <- or_at ss wordID (shl64 suffix (N.of_nat offset)) ;;
  let ss := if Nat.ltb remain suffixLen then ss ++ [shrv suffix (N.of_nat remain)] else ss in
  Ok (set_suffixes lv ss (lv_suffixCount lv + 1)).

(** builder.go:257-260 insertValue *)
Definition insertValue (c : config) (value : bytes) (lv : level) : res level :=
  v <- slice value 0 (c_valueSize c) ;;
  Ok (set_values lv (lv_values lv ++ v) (lv_valueCount lv + 1)).

(** builder.go:262-264 insertPrefix *)
Definition insertPrefix (prefix : bytes) (lv : level) : level :=
  set_prefix lv (lv_hasPrefix lv) (lv_prefixes lv ++ [prefix]).

(** Apply [f] to level [i] of the list. *)
Definition upd_level (ls : list level) (i : nat) (f : level -> res level) : res (list level) :=
  lv <- idx ls i ;; lv' <- f lv ;; upd ls i lv'.

(** builder.go:191-195 ensureLevel *)
Definition ensureLevel (ls : list level) (i : nat) : list level :=
  if Nat.leb (length ls) i then ls ++ [emptyLevel] else ls.


(** builder.go:115-122: the terminator entry of a node. *)
Definition addTerminator (c : config) (e : kv) (depth : nat) (lv : level) : res level :=
  let lv := set_lastTerm (set_labels lv (lv_labels lv ++ [labelTerminator])) true in
  lv <- insertSuffix c (fst e) depth lv ;;
  lv <- insertValue c (snd e) lv ;;
  Ok (moveToNextItemSlot lv).

(** builder.go:135-139: the entry of a single-key group. *)
Definition addLeaf (c : config) (e : kv) (b : byte) (depth : nat) (lv : level) : res level :=
  let lv := moveToNextItemSlot (set_labels lv (lv_labels lv ++ [b])) in
  lv <- insertSuffix c (fst e) depth lv ;;
  insertValue c (snd e) lv.

(** builder.go:135-136, 141: the entry of a group with a subtree. *)
Definition addInner (b : byte) (lv : level) : res level :=
  let lv := moveToNextItemSlot (set_labels lv (lv_labels lv ++ [b])) in
  n <- sub_chk (numItems lv) 1 ;;
  h <- setBit (lv_hasChild lv) n ;;
  Ok (set_bits lv h (lv_louds lv)).

(** builder.go:148-158: what is recorded when a node is complete. *)
Definition finishNode (prefix : bytes) (nodeStart : nat) (lv : level) : res level :=
  lv <- (match prefix with
         | [] => Ok lv
         | _ => h <- setBit (lv_hasPrefix lv) (lv_nodeCount lv) ;;
                Ok (insertPrefix prefix (set_prefix lv h (lv_prefixes lv)))
         end) ;;
  l <- setBit (lv_louds lv) nodeStart ;;
  let lv := set_bits lv (lv_hasChild lv) l in
  let n := lv_nodeCount lv + 1 in
  Ok (set_nodeCount lv n (if Nat.eqb (n mod 64) 0 then lv_hasPrefix lv ++ [0%N] else lv_hasPrefix lv)).

(** builder.go:124-146: the loop over groupEnd, [todo] values of which remain.  The
    result is [None] in the one-way case of lines 129-133, in which the caller recurses
    and returns.  [rec] is the recursive call of line 142. *)
Fixpoint group_loop (rec : list kv -> nat -> nat -> nat -> list level -> res (list level))
    (c : config) (kvs : list kv) (depth i : nat)
    (todo groupStart groupEnd : nat) (ls : list level) : res (option (list level)) :=
  match todo with
  | O => Ok (Some ls)
  | S todo' =>
      same <- (if Nat.ltb groupEnd (length kvs) then
                 es <- idx kvs groupStart ;; ee <- idx kvs groupEnd ;;
                 bs <- idx (fst es) depth ;; be <- idx (fst ee) depth ;; Ok (Nat.eqb bs be)
               else Ok false) ;;
      if same : bool then group_loop rec c kvs depth i todo' groupStart (S groupEnd) ls
      else if Nat.eqb groupEnd (length kvs) && Nat.eqb groupStart 0 && negb (Nat.eqb (groupEnd - groupStart) 1)
      then Ok None
      else
        es <- idx kvs groupStart ;;
        b <- idx (fst es) depth ;;
        ls <- (if Nat.eqb (groupEnd - groupStart) 1
               then upd_level ls i (addLeaf c es b depth)
               else
                 ls <- upd_level ls i (addInner b) ;;
                 sub <- slice kvs groupStart groupEnd ;;
                 rec sub (depth + 1) (depth + 1) (i + 1) ls) ;;
        group_loop rec c kvs depth i todo' groupEnd (S groupEnd) ls
  end.

(** builder.go:110-159 buildNodes.  [keys] and [vals] travel together as a list of
    pairs. *)
Fixpoint buildNodes (fuel : nat) (c : config) (kvs : list kv) (prefixDepth depth i : nat)
    (ls : list level) : res (list level) :=
  match fuel with
  | O => Hang
  | S fuel' =>
      let ls := ensureLevel ls i in
      lv <- idx ls i ;;
      let nodeStart := numItems lv in
      e0 <- idx kvs 0 ;;
      ' (ls, groupStart) <-
        (if Nat.leb (length (fst e0)) depth
         then ls <- upd_level ls i (addTerminator c e0 depth) ;; Ok (ls, 1)
         else Ok (ls, 0)) ;;
      r <- group_loop (buildNodes fuel' c) c kvs depth i (length kvs + 1 - groupStart) groupStart groupStart ls ;;
      match r with
      | None => buildNodes fuel' c kvs prefixDepth (depth + 1) i ls
      | Some ls =>
          prefix <- (if Nat.ltb prefixDepth depth then slice (fst e0) prefixDepth depth else Ok []) ;;
          upd_level ls i (finishNode prefix nodeStart)
      end
  end.

(** builder.go:296-305 denseSizeNoSuffix: the product is computed in uint32. *)
Definition denseSizeNoSuffix (ls : list level) (l : nat) : N :=
  fold_left (fun acc j =>
    let nc k := match nth_error ls k with Some lv => N.of_nat (lv_nodeCount lv) | None => 0%N end in
    w64 (acc + (2 * 256 * nc j) mod two32 + (if Nat.ltb 0 j then nc (j - 1)%nat else 0))%N) (seq 0 l) 0%N.
(** builder.go:307-315 sparseSizeNoSuffix *)
Definition sparseSizeNoSuffix (ls : list level) (l : nat) : N :=
  fold_left (fun acc lv => let n := N.of_nat (numItems lv) in w64 (acc + n * 8 + 2 * n)%N) (skipn l ls) 0%N.

(** builder.go:284-293: the loop over candidate levels, from [l] down. *)
Fixpoint cutoff (l : nat) (ls : list level) (extra sizeHint : N) : nat :=
  match l with
  | O => 0
  | S l' =>
      let sz := w64 (denseSizeNoSuffix ls l + sparseSizeNoSuffix ls l + extra)%N in
      if (sz <=? sizeHint)%N then l else cutoff l' ls extra sizeHint
  end.

(** builder.go:266-294 determineCutoffLevel; [totalCount * bitsPerKeyHint] is an int
    converted to uint64. *)
Definition determineCutoffLevel (ls : list level) (total suffixLen : nat) (hint : Z) : nat :=
  let sizeHint := Z.to_N ((Z.of_nat total * hint) mod Z.of_N two64) in
  let suffixSize := w64 (N.of_nat total * N.of_nat suffixLen) in
  let prefixSize := N.of_nat (nsum (map (fun lv => nsum (map (@length nat) (lv_prefixes lv)) * 8) ls)
                              + nsum (map lv_nodeCount ls)) in
  cutoff (length ls - 1) ls (w64 (suffixSize + prefixSize)) sizeHint.

(** builder.go:325-335 initDenseVectors: lengths of the new vectors *)
Definition denseWords (nodeCount : nat) : nat := nodeCount * (256 / 64).
Definition prefixWords (nodeCount : nat) : nat := nodeCount / 64 + (if Nat.eqb (nodeCount mod 64) 0 then 0 else 1).

(** builder.go:341-344 isTerminator *)
Definition isTerminator (lv : level) (pos : nat) : res bool :=
  l <- idx (lv_labels lv) pos ;;
  h <- readBit (lv_hasChild lv) pos ;;
  Ok (Nat.eqb l labelTerminator && negb h).

(** builder.go:317-323 setLabelAndHasChildVec *)
Definition setLabelAndHasChild (lv : level) (nodeID pos : nat) (lab hc : list N) : res (list N * list N) :=
  l <- idx (lv_labels lv) pos ;;
  lab <- setBit lab (nodeID * 256 + l) ;;
  h <- readBit (lv_hasChild lv) pos ;;
  hc <- (if h : bool then setBit hc (nodeID * 256 + l) else Ok hc) ;;
  Ok (lab, hc).

(** builder.go:176-187: positions [pos..] of one level. *)
Fixpoint dense_loop (todo pos nodeID : nat) (lv : level) (lab hc ip : list N) : res (list N * list N * list N) :=
  match todo with
  | O => Ok (lab, hc, ip)
  | S todo' =>
      st <- readBit (lv_louds lv) pos ;;
      let nodeID := if st : bool then S nodeID else nodeID in
      t <- (if st : bool then isTerminator lv pos else Ok false) ;;
      if t : bool then
        ip <- setBit ip nodeID ;; dense_loop todo' (S pos) nodeID lv lab hc ip
      else
        ' (lab, hc) <- setLabelAndHasChild lv nodeID pos lab hc ;;
        dense_loop todo' (S pos) nodeID lv lab hc ip
  end.

(** builder.go:165-187 buildDense for one level whose dense vectors are given. *)
Definition buildDense_level (lv : level) (lab hc ip : list N) : res (list N * list N * list N) :=
  if Nat.eqb (numItems lv) 0 then Ok (lab, hc, ip) else
  t <- isTerminator lv 0 ;;
  ' (lab, hc, ip) <-
    (if t : bool then ip <- setBit ip 0 ;; Ok (lab, hc, ip)
     else ' (lab, hc) <- setLabelAndHasChild lv 0 0 lab hc ;; Ok (lab, hc, ip)) ;;
  dense_loop (numItems lv - 1) 1 0 lv lab hc ip.

(** builder.go:161-189 buildDense: initDenseVectors appends at the end of the three
    lists, the bits are set at index [l]. *)
Fixpoint buildDense_loop (todo l : nat) (b : builder) : res builder :=
  match todo with
  | O => Ok b
  | S todo' =>
      lv <- idx (b_levels b) l ;;
      let ldl := b_ldLabels b ++ [repeat 0%N (denseWords (lv_nodeCount lv))] in
      let ldh := b_ldHasChild b ++ [repeat 0%N (denseWords (lv_nodeCount lv))] in
      let ldp := b_ldIsPrefix b ++ [repeat 0%N (prefixWords (lv_nodeCount lv))] in
      lab <- idx ldl l ;; hc <- idx ldh l ;; ip <- idx ldp l ;;
      ' (lab, hc, ip) <- buildDense_level lv lab hc ip ;;
      ldl <- upd ldl l lab ;; ldh <- upd ldh l hc ;; ldp <- upd ldp l ip ;;
      buildDense_loop todo' (S l) (mkBuilder (b_sparseStart b) (b_valueSize b) (b_totalCount b) (b_levels b)
        ldl ldh ldp (b_type b) (b_hashLen b) (b_realLen b))
  end.

(* ------------------------------------------------------------------ *)
(** ** loudsDense (louds_dense.go:13-158) *)

Record loudsDense := mkLD {
  ld_label : rankVector; ld_hasChild : rankVector; ld_isPrefix : rankVector;
  ld_suffixes : suffixVector; ld_values : valueVector; ld_prefix : prefixVec; ld_height : nat }.

Definition zeroSuffixes : suffixVector := mkXV (mkBV 0 []) NoneSuffix 0 0.

(** louds_dense.go:25-52 Init *)
Definition ld_init (b : builder) : res loudsDense :=
  let h := b_sparseStart b in
  ldl <- slice (b_ldLabels b) 0 h ;;
  ldh <- slice (b_ldHasChild b) 0 h ;;
  ldp <- slice (b_ldIsPrefix b) 0 h ;;
  lvs <- slice (b_levels b) 0 h ;;
  let nums := map (fun ws => length ws * 64) ldl in
  label <- rankVectorDense_init ldl nums ;;
  hasChild <- rankVectorDense_init ldh nums ;;
  isPrefix <- rankVectorDense_init ldp (map lv_nodeCount (b_levels b)) ;;
  suffixes <- (if suffixType_eqb (b_type b) NoneSuffix then Ok zeroSuffixes else
     suffixVector_init (b_type b) (b_hashLen b) (b_realLen b) (map lv_suffixes lvs)
       (map (fun lv => lv_suffixCount lv * (b_hashLen b + b_realLen b)) lvs)) ;;
  let values := valueVector_init (map lv_values lvs) (b_valueSize b) in
  prefix <- prefixVec_init (map lv_hasPrefix lvs) (map lv_nodeCount lvs) (map lv_prefixes lvs) ;;
  Ok (mkLD label hasChild isPrefix suffixes values prefix h).

(** louds_dense.go:144-146 childNodeID *)
Definition ld_childNodeID (ld : loudsDense) (pos : nat) : res nat := rankDense (ld_hasChild ld) pos.

(** louds_dense.go:148-158 suffixPos *)
Definition ld_suffixPos (ld : loudsDense) (pos : nat) (isPrefix : bool) : res nat :=
  let nodeID := pos / 256 in
  rl <- rankDense (ld_label ld) pos ;;
  rh <- rankDense (ld_hasChild ld) pos ;;
  rp <- rankDense (ld_isPrefix ld) nodeID ;;
  sp <- sub_chk (rl + rp) (rh + 1) ;;
  if isPrefix then
    l <- rv_isSet (ld_label ld) pos ;;
    h <- rv_isSet (ld_hasChild ld) pos ;;
    if l && negb h then sub_chk sp 1 else Ok sp
  else Ok sp.

(** Result of a lookup in the dense levels: an answer, or the node and depth at which
    the sparse levels continue. *)
Inductive dres := DAnswer (v : option bytes) | DCont (nodeID depth : nat).

(** louds_dense.go:66-71, 80-84 and louds_sparse.go:82-86, 94-98: the suffix check
    that ends a lookup.  (nil,false) is [None]. *)
Definition check_value (sv : suffixVector) (vv : valueVector) (valPos : nat) (key : bytes) (level : nat) : res (option bytes) :=
  ok <- checkEquality fingerprint64 sv valPos key level ;;
  if ok : bool then v <- valueVector_get vv valPos ;; Ok (Some v) else Ok None.

(** louds_dense.go:54-92 Get: [todo] levels remain. *)
Fixpoint ld_get_loop (todo : nat) (ld : loudsDense) (key : bytes) (nodeID depth : nat) : res dres :=
  match todo with
  | O => Ok (DCont nodeID depth)
  | S todo' =>
      ' (prefixLen, ok) <- checkPrefix (ld_prefix ld) key depth nodeID ;;
      if negb ok then Ok (DAnswer None) else
      let depth := depth + prefixLen in
      let pos := nodeID * 256 in
      if Nat.leb (length key) depth then
        p <- rv_isSet (ld_isPrefix ld) nodeID ;;
        if p : bool then
          valPos <- ld_suffixPos ld pos true ;;
          v <- check_value (ld_suffixes ld) (ld_values ld) valPos key (depth + 1) ;;
          Ok (DAnswer v)
        else Ok (DAnswer None)
      else
        kb <- idx key depth ;;
        let pos := pos + kb in
        l <- rv_isSet (ld_label ld) pos ;;
        if negb l then Ok (DAnswer None) else
        h <- rv_isSet (ld_hasChild ld) pos ;;
        if negb h then
          valPos <- ld_suffixPos ld pos false ;;
          v <- check_value (ld_suffixes ld) (ld_values ld) valPos key (depth + 1) ;;
          Ok (DAnswer v)
        else
          nodeID <- ld_childNodeID ld pos ;;
          ld_get_loop todo' ld key nodeID (depth + 1)
  end.
Definition ld_get (ld : loudsDense) (key : bytes) : res dres := ld_get_loop (ld_height ld) ld key 0 0.

(* ------------------------------------------------------------------ *)
(** ** loudsSparse (louds_sparse.go:8-206) *)

Record loudsSparse := mkLS {
  ls_height : nat; ls_startLevel : nat; ls_denseNodeCount : nat; ls_denseChildCount : nat;
  ls_label : bytes; ls_hasChild : rankVector; ls_louds : selectVector;
  ls_suffixes : suffixVector; ls_values : valueVector; ls_prefix : prefixVec }.

(** louds_sparse.go:22-58 Init *)
Definition ls_init (b : builder) : res loudsSparse :=
  let lvs := b_levels b in
  let height := length lvs in
  let start := b_sparseStart b in
  dl <- slice lvs 0 start ;;
  let denseNodeCount := nsum (map lv_nodeCount dl) in
  denseChildCount <- (if Nat.eqb start 0 then Ok 0 else lv <- idx lvs start ;; sub_chk (denseNodeCount + lv_nodeCount lv) 1) ;;
  sl <- slice_from lvs start ;;
  let label := labelVector_init (map lv_labels lvs) start height in
  let nums := map numItems sl in
  hasChild <- rankVectorSparse_init (map lv_hasChild sl) nums ;;
  louds <- selectVector_init (map lv_louds sl) nums ;;
  suffixes <- (if suffixType_eqb (b_type b) NoneSuffix then Ok zeroSuffixes else
     suffixVector_init (b_type b) (b_hashLen b) (b_realLen b) (map lv_suffixes sl)
       (map (fun lv => lv_suffixCount lv * (b_hashLen b + b_realLen b)) sl)) ;;
  let values := valueVector_init (map lv_values sl) (b_valueSize b) in
  prefix <- prefixVec_init (map lv_hasPrefix sl) (map lv_nodeCount sl) (map lv_prefixes sl) ;;
  Ok (mkLS height start denseNodeCount denseChildCount label hasChild louds suffixes values prefix).

(** louds_sparse.go:173-175 suffixPos *)
Definition ls_suffixPos (ls : loudsSparse) (pos : nat) : res nat :=
  r <- rankSparse (ls_hasChild ls) pos ;; sub_chk pos r.
(** louds_sparse.go:177-179 firstLabelPos *)
Definition ls_firstLabelPos (ls : loudsSparse) (nodeID : nat) : res nat :=
  k <- sub_chk (nodeID + 1) (ls_denseNodeCount ls) ;; select (ls_louds ls) k.
(** louds_sparse.go:181-183 sparseLevels *)
Definition ls_sparseLevels (ls : loudsSparse) : nat := ls_height ls - ls_startLevel ls.
(** louds_sparse.go:184-186 prefixID *)
Definition ls_prefixID (ls : loudsSparse) (nodeID : nat) : res nat := sub_chk nodeID (ls_denseNodeCount ls).
(** louds_sparse.go:196-198 childNodeID *)
Definition ls_childNodeID (ls : loudsSparse) (pos : nat) : res nat :=
  r <- rankSparse (ls_hasChild ls) pos ;; Ok (r + ls_denseChildCount ls).
(** louds_sparse.go:200-202 nodeSize *)
Definition ls_nodeSize (ls : loudsSparse) (pos : nat) : res nat := distanceToNextSetBit (sv_bv (ls_louds ls)) pos.

(** louds_sparse.go:93-101: the key ended at the node whose first label is at [pos]. *)
Definition ls_get_end (ls : loudsSparse) (key : bytes) (pos depth : nat) : res (option bytes) :=
  l <- getLabel (ls_label ls) pos ;;
  h <- (if Nat.eqb l labelTerminator then rv_isSet (ls_hasChild ls) pos else Ok true) ;;
  if h : bool then Ok None else
  valPos <- ls_suffixPos ls pos ;;
  check_value (ls_suffixes ls) (ls_values ls) valPos key (depth + 1).

(** louds_sparse.go:60-102 Get: the loop; [fuel] bounds the nodes visited. *)
Fixpoint ls_get_loop (fuel : nat) (ls : loudsSparse) (key : bytes) (nodeID pos depth : nat) : res (option bytes) :=
  if Nat.leb (length key) depth then ls_get_end ls key pos depth else
  match fuel with
  | O => Hang
  | S fuel' =>
      pid <- ls_prefixID ls nodeID ;;
      ' (prefixLen, ok) <- checkPrefix (ls_prefix ls) key depth pid ;;
      if negb ok then Ok None else
      let depth := depth + prefixLen in
      if Nat.leb (length key) depth then ls_get_end ls key pos depth else
      kb <- idx key depth ;;
      size <- ls_nodeSize ls pos ;;
      ' (pos, ok) <- label_search (ls_label ls) kb pos size ;;
      if negb ok then Ok None else
      h <- rv_isSet (ls_hasChild ls) pos ;;
      if negb h then
        valPos <- ls_suffixPos ls pos ;;
        check_value (ls_suffixes ls) (ls_values ls) valPos key (depth + 1)
      else
        nodeID <- ls_childNodeID ls pos ;;
        pos <- ls_firstLabelPos ls nodeID ;;
        ls_get_loop fuel' ls key nodeID pos (depth + 1)
  end.
Definition ls_get (ls : loudsSparse) (key : bytes) (startDepth nodeID : nat) : res (option bytes) :=
  pos <- ls_firstLabelPos ls nodeID ;;
  ls_get_loop (length key) ls key nodeID pos startDepth.

(* ------------------------------------------------------------------ *)
(** ** SuRF (surf.go:8-21) *)

Record surf := mkSurf { s_ld : loudsDense; s_ls : loudsSparse }.

(** surf.go:15-21 Get; (nil,false) is [None]. *)
Definition surf_get (s : surf) (key : bytes) : res (option bytes) :=
  r <- ld_get (s_ld s) key ;;
  match r with
  | DAnswer v => Ok v
  | DCont nodeID depth => ls_get (s_ls s) key depth nodeID
  end.

(** builder.go:91-108 Build: the filter and the builder afterwards.  The keys and
    values arrive as two lists ([vals] must be at least as long as [keys], otherwise
    indexing it panics). *)
Fixpoint zip_kvs (keys vals : list bytes) : res (list kv) :=
  match keys, vals with
  | [], _ => Ok []
  | k :: ks, v :: vs => r <- zip_kvs ks vs ;; Ok ((k, v) :: r)
  | _ :: _, [] => Panic
  end.

Definition b_config (b : builder) : config := mkConfig (b_valueSize b) (b_type b) (b_hashLen b) (b_realLen b).

Definition surf_build (fuel : nat) (b : builder) (keys vals : list bytes) (hint : Z) : res (surf * builder) :=
  kvs <- zip_kvs keys vals ;;
  lvs <- buildNodes fuel (b_config b) kvs 0 0 0 (b_levels b) ;;
  let start := determineCutoffLevel lvs (length keys) (b_hashLen b + b_realLen b) hint in
  b <- buildDense_loop start 0 (mkBuilder start (b_valueSize b) (length keys) lvs (b_ldLabels b) (b_ldHasChild b) (b_ldIsPrefix b)
         (b_type b) (b_hashLen b) (b_realLen b)) ;;
  _ <- prefixVec_init (map lv_hasPrefix lvs) (map lv_nodeCount lvs) (map lv_prefixes lvs) ;;
  ld <- ld_init b ;;
  ls <- ls_init b ;;
  Ok (mkSurf ld ls, b).
End Hash.
