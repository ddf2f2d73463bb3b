(** * SurfWordIter: the SuRF iterators and HasOverlap with the uint32 arithmetic of the code.

    The functions of SurfIter.v with every uint32 of the code reduced modulo 2^32, as SurfWord.v
    does for Build and Get. Iterators, Valid, Key, Reset and passToSparse, which do no such
    arithmetic, are those of SurfIter.v. As there, the final [level--] of denseIter.Seek is not
    wrapped: its value is unused when it would wrap (no dense levels). *)
From Verif Require Import Base BitsModel VecModel SurfModel SurfIter SurfWord.

(* ------------------------------------------------------------------ *)
(** ** Vectors (bits_vec.go) *)

(** bits_vec.go:125-132 *)
Fixpoint prev_loop32 (wordOff : nat) (v : bitVector) (distance : nat) : res nat :=
  match wordOff with
  | O => Ok distance
  | S wordOff' =>
      w <- idx (bv_bits v) wordOff' ;;
      if (0 <? w)%N then Ok (add32 distance (clz64 w))
      else prev_loop32 wordOff' v (add32 distance 64)
  end.
(** bits_vec.go:110-133 DistanceToPrevSetBit *)
Definition distanceToPrevSetBit32 (v : bitVector) (pos : nat) : res nat :=
  if Nat.eqb pos 0 then Ok 1 else
  let distance := 1 in
  let wordOff := minus32 pos 1 / 64 in
  let bitsOff := minus32 pos 1 mod 64 in
  w <- idx (bv_bits v) wordOff ;;
  let testBits := shl64 w (N.of_nat (64 - 1 - bitsOff)) in
  if (0 <? testBits)%N then Ok (add32 distance (clz64 testBits)) else
  prev_loop32 wordOff v (add32 distance (bitsOff + 1)).

(** bits_vec.go:475-486 SearchGreaterThan: sort.Search counts in int. *)
Definition label_search_gt32 (labels : bytes) (label : byte) (pos size : nat) : res (nat * bool) :=
  '(pos, size) <- (if Nat.ltb 1 size then
      l <- idx labels pos ;;
      Ok (if Nat.eqb l labelTerminator then (add32 pos 1, size - 1) else (pos, size))
    else Ok (pos, size)) ;;
  r <- sort_search size (fun i => l <- idx labels (add32 pos (w32 i)) ;; Ok (Nat.ltb label l)) 0 size ;;
  if Nat.eqb (w32 r) size then Ok (minus32 (add32 pos (w32 r)) 1, false) else Ok (add32 pos (w32 r), true).

(** bits_vec.go:660-680 Compare *)
Definition suffix_compare32 (v : suffixVector) (key : bytes) (i level : nat) : res Z :=
  if Nat.leb (bv_numBits (xv_bv v)) (mul32 i (xv_suffixLen32 v))
     || suffixType_eqb (xv_type v) NoneSuffix || suffixType_eqb (xv_type v) HashSuffix
  then Ok couldBePositive else
  suffix <- suffix_read32 v i ;;
  let suffix := if suffixType_eqb (xv_type v) MixedSuffix
                then extractRealSuffix suffix (xv_realLen v) else suffix in
  expected <- constructRealSuffix32 key level (xv_realLen v) ;;
  if (suffix =? 0)%N && (expected =? 0)%N then Ok couldBePositive
  else if (suffix =? 0)%N || (suffix <? expected)%N then Ok (-1)%Z
  else if (suffix =? expected)%N then Ok couldBePositive
  else Ok 1%Z.

(** louds_dense.go:144-146 childNodeID *)
Definition ld_childNodeID32 (ld : loudsDense) (pos : nat) : res nat := rank_at32 rankDenseBlockSize (ld_hasChild ld) pos.
(** louds_sparse.go:181-183 sparseLevels, 184-186 prefixID, 200-202 nodeSize *)
Definition ls_sparseLevels32 (ls : loudsSparse) : nat := minus32 (ls_height ls) (ls_startLevel ls).
Definition ls_prefixID32 (ls : loudsSparse) (nodeID : nat) : nat := minus32 nodeID (ls_denseNodeCount ls).
Definition ls_nodeSize32 (ls : loudsSparse) (pos : nat) : res nat := distanceToNextSetBit32 (sv_bv (ls_louds ls)) pos.

(* ------------------------------------------------------------------ *)
(** ** Dense levels *)

(** louds_dense.go:160-162 nextPos *)
Definition ld_nextPos32 (ld : loudsDense) (pos : nat) : res nat :=
  d <- distanceToNextSetBit32 (rv_bv (ld_label ld)) pos ;; Ok (add32 pos d).
(** louds_dense.go:164-170 prevPos: [None] is the result (0, true). *)
Definition ld_prevPos32 (ld : loudsDense) (pos : nat) : res (option nat) :=
  d <- distanceToPrevSetBit32 (rv_bv (ld_label ld)) pos ;;
  Ok (if Nat.leb pos d then None else Some (minus32 pos d)).

(** louds_dense.go:370-380 append *)
Definition d_append32 (ld : loudsDense) (it : denseIter) (pos : nat) : res denseIter :=
  prefix <- getPrefix32 (ld_prefix ld) (pos / 256) ;;
  ps <- upd (d_pos it) (d_level it) pos ;;
  base <- (if Nat.eqb (d_level it) 0 then Ok 0 else idx (d_plen it) (d_level it - 1)) ;;
  pl <- upd (d_plen it) (d_level it) (add32 (add32 (w32 (length prefix)) 1) base) ;;
  Ok (d_setKey (d_setPos it ps pl) (d_key it ++ prefix ++ [pos mod 256])).

(** louds_dense.go:389-410: the loop of MoveToLeftMostKey and what follows it;
    [todo] = height-1-level. *)
Fixpoint d_left_loop32 (todo : nat) (ld : loudsDense) (it : denseIter) (pos : nat) : res denseIter :=
  match todo with
  | O =>
      n <- ld_childNodeID32 ld pos ;;
      Ok (d_setFlags (d_setSend it n (w32 (length (d_key it)))) true true false true)
  | S todo' =>
      let it := d_setLevel it (add32 (d_level it) 1) in
      nodeID <- ld_childNodeID32 ld pos ;;
      p <- rv_isSet (ld_isPrefix ld) nodeID ;;
      pos <- ld_nextPos32 ld (minus32 (mul32 nodeID 256) 1) ;;
      it <- d_append32 ld it pos ;;
      if p : bool then Ok (d_complete_flags (d_setAtPrefix it true)) else
      h <- rv_isSet (ld_hasChild ld) pos ;;
      if negb h then Ok (d_complete_flags it) else d_left_loop32 todo' ld it pos
  end.
(** louds_dense.go:382-411 MoveToLeftMostKey *)
Definition d_moveLeft32 (ld : loudsDense) (it : denseIter) : res denseIter :=
  pos <- idx (d_pos it) (d_level it) ;;
  h <- rv_isSet (ld_hasChild ld) pos ;;
  if negb h then Ok (d_complete_flags it) else d_left_loop32 (minus32 (ld_height ld) 1 - d_level it) ld it pos.

(** louds_dense.go:420-439: the loop of MoveToRightMostKey. *)
Fixpoint d_right_loop32 (todo : nat) (ld : loudsDense) (it : denseIter) (pos : nat) : res denseIter :=
  match todo with
  | O =>
      n <- ld_childNodeID32 ld pos ;;
      Ok (d_setFlags (d_setSend it n (w32 (length (d_key it)))) true true true false)
  | S todo' =>
      let it := d_setLevel it (add32 (d_level it) 1) in
      nodeID <- ld_childNodeID32 ld pos ;;
      pp <- ld_prevPos32 ld (mul32 (add32 nodeID 1) 256) ;;
      match pp with
      | None => Ok (d_setValid it false)
      | Some pos =>
          it <- d_append32 ld it pos ;;
          h <- rv_isSet (ld_hasChild ld) pos ;;
          if negb h then Ok (d_complete_flags it) else d_right_loop32 todo' ld it pos
      end
  end.
(** louds_dense.go:413-440 MoveToRightMostKey *)
Definition d_moveRight32 (ld : loudsDense) (it : denseIter) : res denseIter :=
  pos <- idx (d_pos it) (d_level it) ;;
  h <- rv_isSet (ld_hasChild ld) pos ;;
  if negb h then Ok (d_complete_flags it) else d_right_loop32 (minus32 (ld_height ld) 1 - d_level it) ld it pos.

(** louds_dense.go:442-448 SetToFirstInRoot *)
Definition d_setToFirst32 (ld : loudsDense) (it : denseIter) : res denseIter :=
  l <- rv_isSet (ld_label ld) 0 ;;
  if l : bool then d_append32 ld it 0 else p <- ld_nextPos32 ld 0 ;; d_append32 ld it p.
(** louds_dense.go:450-453 SetToLastInRoot *)
Definition d_setToLast32 (ld : loudsDense) (it : denseIter) : res denseIter :=
  pp <- ld_prevPos32 ld 256 ;; d_append32 ld it (match pp with Some p => p | None => 0 end).

(** louds_dense.go:455-458 setAt ([level] is always it.level) *)
Definition d_setAt32 (it : denseIter) (pos : nat) : res denseIter :=
  pl <- idx (d_plen it) (d_level it) ;;
  k <- slice (d_key it) 0 (minus32 pl 1) ;;
  ps <- upd (d_pos it) (d_level it) pos ;;
  Ok (d_setKey (d_setPos it ps (d_plen it)) (k ++ [pos mod 256])).
(** louds_dense.go:460-462 truncate *)
Definition d_truncate32 (it : denseIter) : res denseIter :=
  pl <- idx (d_plen it) (d_level it) ;;
  k <- slice (d_key it) 0 pl ;;
  Ok (d_setKey it k).

(** louds_dense.go:210-224: from reading posInTrie[level] on, in Next. *)
Fixpoint d_next_climb32 (level : nat) (ld : loudsDense) (it : denseIter) : res denseIter :=
  pos <- idx (d_pos it) level ;;
  np <- ld_nextPos32 ld pos ;;
  if Nat.eqb pos np || Nat.ltb (pos / 256) (np / 256) then
    match level with
    | O => Ok (d_setValid (d_setLevel it 0) false)
    | S l => d_next_climb32 l ld it
    end
  else it <- d_setAt32 (d_setLevel it level) np ;; d_moveLeft32 ld it.
(** louds_dense.go:200-224 Next *)
Definition d_next32 (ld : loudsDense) (it : denseIter) : res denseIter :=
  if Nat.eqb (ld_height ld) 0 then Ok it else
  if d_atPrefix it then d_moveLeft32 ld (d_setAtPrefix it false) else
  d_next_climb32 (d_level it) ld it.

(** louds_dense.go:234-263: from reading posInTrie[level] on, in Prev. *)
Fixpoint d_prev_climb32 (level : nat) (ld : loudsDense) (it : denseIter) : res denseIter :=
  pos <- idx (d_pos it) level ;;
  pp <- ld_prevPos32 ld pos ;;
  match pp with
  | None => Ok (d_setValid (d_setLevel it level) false)
  | Some prevPos =>
      if Nat.ltb (prevPos / 256) (pos / 256) then
        p <- rv_isSet (ld_isPrefix ld) (pos / 256) ;;
        if p : bool then
          it <- d_truncate32 (d_setLevel it level) ;;
          Ok (d_complete_flags (d_setAtPrefix it true))
        else
          match level with
          | O => Ok (d_setValid (d_setLevel it 0) false)
          | S l => d_prev_climb32 l ld it
          end
      else it <- d_setAt32 (d_setLevel it level) prevPos ;; d_moveRight32 ld it
  end.
(** louds_dense.go:226-264 Prev *)
Definition d_prev32 (ld : loudsDense) (it : denseIter) : res denseIter :=
  if Nat.eqb (ld_height ld) 0 then Ok it else
  if d_atPrefix it then
    let l := minus32 (d_level it) 1 in
    d_prev_climb32 l ld (d_setLevel (d_setAtPrefix it false) l)
  else d_prev_climb32 (d_level it) ld it.

(** louds_dense.go:464-472 compareSuffixGreaterThan *)
Definition d_compareSuffix32 (ld : loudsDense) (it : denseIter) (key : bytes) (pos level : nat) : res (denseIter * bool) :=
  sp <- ld_suffixPos32 ld pos false ;;
  cmp <- suffix_compare32 (ld_suffixes ld) key sp level ;;
  if (cmp <? 0)%Z then it <- d_next32 ld it ;; Ok (it, false)
  else Ok (d_complete_flags it, (cmp =? couldBePositive)%Z).

(** louds_dense.go:266-327 Seek; [todo] levels remain and it.level = height - todo. *)
Fixpoint d_seek_loop32 (todo : nat) (ld : loudsDense) (it : denseIter) (key : bytes) (nodeID depth : nat) : res (denseIter * bool) :=
  match todo with
  | O =>
      let it := d_setLevel it (Nat.pred (d_level it)) in
      Ok (d_setFlags (d_setSend it nodeID depth) true false true true, true)
  | S todo' =>
      prefix <- getPrefix32 (ld_prefix ld) nodeID ;;
      cmp <- prefix_cmp prefix key depth ;;
      if (cmp <? 0)%Z then
        if Nat.eqb nodeID 0 then Ok (d_setValid it false, false) else
        it <- d_next32 ld (d_setLevel it (minus32 (d_level it) 1)) ;; Ok (it, false)
      else
        let pos := mul32 nodeID 256 in
        let depth := add32 depth (w32 (length prefix)) in
        if Nat.leb (w32 (length key)) depth || (0 <? cmp)%Z then
          it <- (if Nat.ltb 0 pos then p <- ld_nextPos32 ld (minus32 pos 1) ;; d_append32 ld it p else d_setToFirst32 ld it) ;;
          p <- rv_isSet (ld_isPrefix ld) nodeID ;;
          it <- (if p : bool then Ok (d_complete_flags (d_setAtPrefix it true)) else d_moveLeft32 ld it) ;;
          Ok (it, (cmp =? 0)%Z)
        else
          kb <- idx key depth ;;
          let pos := add32 pos kb in
          it <- d_append32 ld it pos ;;
          l <- rv_isSet (ld_label ld) pos ;;
          if negb l then it <- d_next32 ld it ;; Ok (it, false) else
          h <- rv_isSet (ld_hasChild ld) pos ;;
          if negb h then d_compareSuffix32 ld it key pos (add32 depth 1) else
          nodeID <- ld_childNodeID32 ld pos ;;
          d_seek_loop32 todo' ld (d_setLevel it (add32 (d_level it) 1)) key nodeID (add32 depth 1)
  end.
Definition d_seek32 (ld : loudsDense) (it : denseIter) (key : bytes) : res (denseIter * bool) :=
  d_seek_loop32 (ld_height ld) ld (d_setLevel it 0) key 0 0.

(** louds_dense.go:336-339 Value *)
Definition d_Value32 (ld : loudsDense) (it : denseIter) : res bytes :=
  pos <- idx (d_pos it) (d_level it) ;;
  vp <- ld_suffixPos32 ld pos (d_atPrefix it) ;;
  valueVector_get32 (ld_values ld) vp.
(** louds_dense.go:341-364 Compare *)
Definition d_compare32 (ld : loudsDense) (it : denseIter) (key : bytes) : res Z :=
  itKey <- d_Key it ;;
  let cmpLen := Nat.min (length itKey) (length key) in
  let cmp := cmpZ (firstn cmpLen itKey) (firstn cmpLen key) in
  if negb (cmp =? 0)%Z then Ok cmp else
  if Nat.ltb (length key) (length itKey) then Ok 1%Z else
  if Nat.eqb (length itKey) (length key) && d_atPrefix it then Ok 0%Z else
  if d_isComplete it then
    pos <- idx (d_pos it) (d_level it) ;;
    sp <- ld_suffixPos32 ld pos (d_atPrefix it) ;;
    suffix_compare32 (ld_suffixes ld) key sp (w32 (length itKey))
  else Ok cmp.

(* ------------------------------------------------------------------ *)
(** ** Sparse levels *)

(** louds_sparse.go:188-194 lastLabelPos *)
Definition ls_lastLabelPos32 (ls : loudsSparse) (nodeID : nat) : res nat :=
  let nextRank := minus32 (add32 nodeID 2) (ls_denseNodeCount ls) in
  if Nat.ltb (sv_numOnes (ls_louds ls)) nextRank then Ok (minus32 (bv_numBits (sv_bv (ls_louds ls))) 1)
  else p <- select32 (ls_louds ls) nextRank ;; Ok (minus32 p 1).
(** louds_sparse.go:204-206 isEndOfNode *)
Definition ls_isEndOfNode32 (ls : loudsSparse) (pos : nat) : res bool :=
  if Nat.eqb pos (minus32 (bv_numBits (sv_bv (ls_louds ls))) 1) then Ok true else bv_isSet (sv_bv (ls_louds ls)) (add32 pos 1).

(** louds_sparse.go:222-228 Init of a new iterator *)
Definition p_init32 (ls : loudsSparse) : sparseIter :=
  let z := repeat 0 (ls_sparseLevels32 ls) in mkSI false false 0 0 0 [] z z z.
(** louds_sparse.go:475-485 append *)
Definition p_append32 (ls : loudsSparse) (it : sparseIter) (label : byte) (pos nodeID : nat) : res sparseIter :=
  prefix <- getPrefix32 (ls_prefix ls) (ls_prefixID32 ls nodeID) ;;
  ps <- upd (p_pos it) (p_level it) pos ;;
  base <- (if Nat.eqb (p_level it) 0 then Ok 0 else idx (p_plen it) (p_level it - 1)) ;;
  pl <- upd (p_plen it) (p_level it) (add32 (add32 (w32 (length prefix)) 1) base) ;;
  ns <- upd (p_node it) (p_level it) nodeID ;;
  Ok (p_setKey (p_setPos it ps ns pl) (p_key it ++ prefix ++ [label])).

(** louds_sparse.go:401-407, 415-422: the iterator stands on the leaf at [pos]. *)
Definition p_finish32 (ls : loudsSparse) (it : sparseIter) (label : byte) (pos : nat) : res sparseIter :=
  t <- (if Nat.eqb label labelTerminator then e <- ls_isEndOfNode32 ls pos ;; Ok (negb e) else Ok false) ;;
  Ok (p_setValid (if t : bool then p_setAtTerm it true else it) true).

(** louds_sparse.go:409-425 and 446-462: the loops of MoveToLeftMostKey and
    MoveToRightMostKey; [childPos] is firstLabelPos or lastLabelPos. *)
Fixpoint p_down_loop32 (childPos : nat -> res nat) (todo : nat) (ls : loudsSparse) (it : sparseIter) (pos : nat) : res sparseIter :=
  match todo with
  | O => Panic
  | S todo' =>
      let it := p_setLevel it (add32 (p_level it) 1) in
      nodeID <- ls_childNodeID32 ls pos ;;
      pos <- childPos nodeID ;;
      label <- getLabel (ls_label ls) pos ;;
      h <- rv_isSet (ls_hasChild ls) pos ;;
      it <- p_append32 ls it label pos nodeID ;;
      if negb h then p_finish32 ls it label pos else p_down_loop32 childPos todo' ls it pos
  end.
(** louds_sparse.go:391-426 MoveToLeftMostKey, 428-463 MoveToRightMostKey *)
Definition p_move32 (childPos : nat -> res nat) (ls : loudsSparse) (it : sparseIter) : res sparseIter :=
  it <- (match p_key it with
         | [] => pos <- childPos (p_startNode it) ;;
                 label <- getLabel (ls_label ls) pos ;;
                 p_append32 ls it label pos (p_startNode it)
         | _ => Ok it
         end) ;;
  pos <- idx (p_pos it) (p_level it) ;;
  label <- getLabel (ls_label ls) pos ;;
  h <- rv_isSet (ls_hasChild ls) pos ;;
  if negb h then p_finish32 ls it label pos else p_down_loop32 childPos (ls_sparseLevels32 ls - p_level it) ls it pos.
Definition p_moveLeft32 (ls : loudsSparse) := p_move32 (ls_firstLabelPos32 ls) ls.
Definition p_moveRight32 (ls : loudsSparse) := p_move32 (ls_lastLabelPos32 ls) ls.

(** louds_sparse.go:487-490 setAt *)
Definition p_setAt32 (ls : loudsSparse) (it : sparseIter) (pos : nat) : res sparseIter :=
  pl <- idx (p_plen it) (p_level it) ;;
  k <- slice (p_key it) 0 (minus32 pl 1) ;;
  label <- getLabel (ls_label ls) pos ;;
  ps <- upd (p_pos it) (p_level it) pos ;;
  Ok (p_setKey (p_setPos it ps (p_node it) (p_plen it)) (k ++ [label])).

(** louds_sparse.go:230-247 Next *)
Fixpoint p_next_climb32 (level : nat) (ls : loudsSparse) (it : sparseIter) : res sparseIter :=
  pos0 <- idx (p_pos it) level ;;
  _ <- idx (p_node it) level ;;
  let pos := add32 pos0 1 in
  up <- (if Nat.leb (bv_numBits (sv_bv (ls_louds ls))) pos then Ok true else bv_isSet (sv_bv (ls_louds ls)) pos) ;;
  if up : bool then
    match level with
    | O => Ok (p_setKey (p_setValid (p_setLevel it 0) false) [])
    | S l => p_next_climb32 l ls it
    end
  else it <- p_setAt32 ls (p_setLevel it level) pos ;; p_moveLeft32 ls it.
Definition p_next32 (ls : loudsSparse) (it : sparseIter) : res sparseIter :=
  p_next_climb32 (p_level it) ls (p_setAtTerm it false).

(** louds_sparse.go:258-269: the loop of Prev. *)
Fixpoint p_prev_climb32 (level : nat) (ls : loudsSparse) (it : sparseIter) : res sparseIter :=
  pos <- idx (p_pos it) level ;;
  _ <- idx (p_node it) level ;;
  b <- bv_isSet (sv_bv (ls_louds ls)) pos ;;
  if b : bool then
    match level with
    | O => Ok (p_setKey (p_setValid (p_setLevel it 0) false) [])
    | S l => p_prev_climb32 l ls it
    end
  else
    it <- p_setAt32 ls (p_setLevel it level) (minus32 pos 1) ;; p_moveRight32 ls it.
(** louds_sparse.go:249-270 Prev *)
Definition p_prev32 (ls : loudsSparse) (it : sparseIter) : res sparseIter :=
  let it := p_setAtTerm it false in
  pos <- idx (p_pos it) (p_level it) ;;
  _ <- idx (p_node it) (p_level it) ;;
  if Nat.eqb pos 0 then Ok (p_setValid it false) else p_prev_climb32 (p_level it) ls it.

(** louds_sparse.go:496-504 moveToLeftInNextSubTrie *)
Definition p_leftInNext32 (ls : loudsSparse) (it : sparseIter) (pos nodeID nodeSize : nat) (label : byte) : res sparseIter :=
  ' (pos, ok) <- label_search_gt32 (ls_label ls) label pos nodeSize ;;
  l <- getLabel (ls_label ls) pos ;;
  it <- p_append32 ls it l pos nodeID ;;
  if ok : bool then p_moveLeft32 ls it else p_next32 ls it.

(** louds_sparse.go:506-514 compareSuffixGreaterThan *)
Definition p_compareSuffix32 (ls : loudsSparse) (it : sparseIter) (key : bytes) (pos level : nat) : res (sparseIter * bool) :=
  sp <- ls_suffixPos32 ls pos ;;
  cmp <- suffix_compare32 (ls_suffixes ls) key sp level ;;
  if (cmp <? 0)%Z then it <- p_next32 ls it ;; Ok (it, false)
  else Ok (p_setValid it true, (cmp =? couldBePositive)%Z).

(** louds_sparse.go:272-338 Seek *)
Fixpoint p_seek_loop32 (todo : nat) (ls : loudsSparse) (it : sparseIter) (key : bytes) (nodeID pos depth : nat) : res (sparseIter * bool) :=
  match todo with
  | O =>
      (* louds_sparse.go:324-337 *)
      l <- getLabel (ls_label ls) pos ;;
      t <- (if Nat.eqb l labelTerminator then
              h <- rv_isSet (ls_hasChild ls) pos ;;
              if negb h then e <- ls_isEndOfNode32 ls pos ;; Ok (negb e) else Ok false
            else Ok false) ;;
      if t : bool then
        it <- p_append32 ls it labelTerminator pos nodeID ;;
        Ok (p_setValid (p_setAtTerm it true) true, false)
      else if Nat.leb (w32 (length key)) depth then
        it <- p_moveLeft32 ls it ;; Ok (it, false)
      else Ok (p_setValid it true, true)
  | S todo' =>
      prefix <- getPrefix32 (ls_prefix ls) (ls_prefixID32 ls nodeID) ;;
      cmp <- prefix_cmp prefix key depth ;;
      if (cmp <? 0)%Z then
        if Nat.eqb (p_level it) 0 then Ok (p_setValid it false, false) else
        it <- p_next32 ls (p_setLevel it (p_level it - 1)) ;; Ok (it, false)
      else
        let depth := add32 depth (w32 (length prefix)) in
        if Nat.leb (w32 (length key)) depth || (0 <? cmp)%Z then
          l <- getLabel (ls_label ls) pos ;;
          it <- p_append32 ls it l pos nodeID ;;
          it <- p_moveLeft32 ls it ;; Ok (it, false)
        else
          kb <- idx key depth ;;
          size <- ls_nodeSize32 ls pos ;;
          ' (pos, ok) <- label_search32 (ls_label ls) kb pos size ;;
          if negb ok then
            it <- p_leftInNext32 ls it pos nodeID size kb ;; Ok (it, false)
          else
          it <- p_append32 ls it kb pos nodeID ;;
          h <- rv_isSet (ls_hasChild ls) pos ;;
          if negb h then p_compareSuffix32 ls it key pos (add32 depth 1) else
          nodeID <- ls_childNodeID32 ls pos ;;
          pos <- ls_firstLabelPos32 ls nodeID ;;
          p_seek_loop32 todo' ls (p_setLevel it (add32 (p_level it) 1)) key nodeID pos (add32 depth 1)
  end.
Definition p_seek32 (ls : loudsSparse) (it : sparseIter) (key : bytes) : res (sparseIter * bool) :=
  pos <- ls_firstLabelPos32 ls (p_startNode it) ;;
  p_seek_loop32 (ls_sparseLevels32 ls) ls (p_setLevel it 0) key (p_startNode it) pos (p_startDepth it).

(** louds_sparse.go:347-350 Value *)
Definition p_Value32 (ls : loudsSparse) (it : sparseIter) : res bytes :=
  pos <- idx (p_pos it) (p_level it) ;;
  vp <- ls_suffixPos32 ls pos ;;
  valueVector_get32 (ls_values ls) vp.
(** louds_sparse.go:352-382 Compare *)
Definition p_compare32 (ls : loudsSparse) (it : sparseIter) (key : bytes) : res Z :=
  itKey <- p_Key it ;;
  if Nat.ltb (length key) (p_startDepth it) then Panic else
  if Nat.eqb (p_startDepth it) (length key) then Ok (if p_atTerm it then 0%Z else 1%Z) else
  key <- slice_from key (p_startDepth it) ;;
  let cmpLen := Nat.min (length itKey) (length key) in
  let cmp := cmpZ (firstn cmpLen itKey) (firstn cmpLen key) in
  if negb (cmp =? 0)%Z then Ok cmp else
  if Nat.ltb (length key) (length itKey) then Ok 1%Z else
  if Nat.eqb (length itKey) (length key) && p_atTerm it then Ok 0%Z else
  pos <- idx (p_pos it) (p_level it) ;;
  sp <- ls_suffixPos32 ls pos ;;
  suffix_compare32 (ls_suffixes ls) key sp (w32 (length itKey)).

(** louds_sparse.go:465-473 SetToFirstInRoot, SetToLastInRoot *)
Definition p_setToFirst32 (ls : loudsSparse) (it : sparseIter) : res sparseIter :=
  ps <- upd (p_pos it) 0 0 ;;
  l <- getLabel (ls_label ls) 0 ;;
  Ok (p_setKey (p_setPos it ps (p_node it) (p_plen it)) [l]).
Definition p_setToLast32 (ls : loudsSparse) (it : sparseIter) : res sparseIter :=
  p <- ls_lastLabelPos32 ls 0 ;;
  ps <- upd (p_pos it) 0 p ;;
  l <- getLabel (ls_label ls) p ;;
  Ok (p_setKey (p_setPos it ps (p_node it) (p_plen it)) [l]).

(* ------------------------------------------------------------------ *)
(** ** Iterator (surf.go:86-272) *)

(** surf.go:93-99 NewIterator *)
Definition newIterator32 (s : surf) : iter := mkIter (d_init (s_ld s)) (p_init32 (s_ls s)).
(** surf.go:214-230 incrDenseIter (its result is unused) *)
Definition incrDense32 (s : surf) (it : iter) : res iter :=
  if negb (d_valid (i_dense it)) then Ok it else
  d <- d_next32 (s_ld s) (i_dense it) ;;
  let it := mkIter d (i_sparse it) in
  if negb (d_valid d) then Ok it else
  if d_left d then Ok it else
  it_sparse (passToSparse it) (p_moveLeft32 (s_ls s)).
(** surf.go:106-112 Next with 232-238 incrSparseIter *)
Definition it_next32 (s : surf) (it : iter) : res iter :=
  if p_valid (i_sparse it) then
    p <- p_next32 (s_ls s) (i_sparse it) ;;
    let it := mkIter (i_dense it) p in
    if p_valid p then Ok it else incrDense32 s it
  else incrDense32 s it.
(** surf.go:240-256 decrDenseIter *)
Definition decrDense32 (s : surf) (it : iter) : res iter :=
  if negb (d_valid (i_dense it)) then Ok it else
  d <- d_prev32 (s_ld s) (i_dense it) ;;
  let it := mkIter d (i_sparse it) in
  if negb (d_valid d) then Ok it else
  if d_right d then Ok it else
  it_sparse (passToSparse it) (p_moveRight32 (s_ls s)).
(** surf.go:114-120 Prev with 258-264 decrSparseIter *)
Definition it_prev32 (s : surf) (it : iter) : res iter :=
  if p_valid (i_sparse it) then
    p <- p_prev32 (s_ls s) (i_sparse it) ;;
    let it := mkIter (i_dense it) p in
    if p_valid p then Ok it else decrDense32 s it
  else decrDense32 s it.

(** surf.go:122-150 Seek *)
Definition it_seek32 (s : surf) (it : iter) (key : bytes) : res (iter * bool) :=
  let it := it_reset it in
  if Nat.eqb (ls_height (s_ls s)) 0 && Nat.eqb (ld_height (s_ld s)) 0 then Ok (it, false) else
  ' (d, fp) <- d_seek32 (s_ld s) (i_dense it) key ;;
  let it := mkIter d (i_sparse it) in
  if negb (d_valid d) || d_isComplete d then Ok (it, fp) else
  if negb (d_search d) then
    let it := passToSparse it in
    ' (p, fp) <- p_seek32 (s_ls s) (i_sparse it) key ;;
    let it := mkIter d p in
    it <- (if negb (p_valid p) then incrDense32 s it else Ok it) ;;
    Ok (it, fp)
  else if negb (d_left d) then
    it <- it_sparse (passToSparse it) (p_moveLeft32 (s_ls s)) ;; Ok (it, fp)
  else Panic.

(** surf.go:152-167 SeekToFirst *)
Definition it_seekToFirst32 (s : surf) (it : iter) : res iter :=
  let it := it_reset it in
  if Nat.ltb 0 (ld_height (s_ld s)) then
    d <- d_setToFirst32 (s_ld s) (i_dense it) ;;
    d <- d_moveLeft32 (s_ld s) d ;;
    let it := mkIter d (i_sparse it) in
    if d_left d then Ok it else it_sparse (passToSparse it) (p_moveLeft32 (s_ls s))
  else if Nat.ltb 0 (ls_height (s_ls s)) then
    it_sparse it (fun p => p <- p_setToFirst32 (s_ls s) p ;; p_moveLeft32 (s_ls s) p)
  else Ok it.
(** surf.go:169-184 SeekToLast *)
Definition it_seekToLast32 (s : surf) (it : iter) : res iter :=
  let it := it_reset it in
  if Nat.ltb 0 (ld_height (s_ld s)) then
    d <- d_setToLast32 (s_ld s) (i_dense it) ;;
    d <- d_moveRight32 (s_ld s) d ;;
    let it := mkIter d (i_sparse it) in
    if d_right d then Ok it else it_sparse (passToSparse it) (p_moveRight32 (s_ls s))
  else if Nat.ltb 0 (ls_height (s_ls s)) then
    it_sparse it (fun p => p <- p_setToLast32 (s_ls s) p ;; p_moveRight32 (s_ls s) p)
  else Ok it.

(** surf.go:195-201 Value *)
Definition it_value32 (s : surf) (it : iter) : res bytes :=
  if d_isComplete (i_dense it) then d_Value32 (s_ld s) (i_dense it) else p_Value32 (s_ls s) (i_sparse it).

(** surf.go:266-272 compare *)
Definition it_compare32 (s : surf) (it : iter) (key : bytes) : res Z :=
  cmp <- d_compare32 (s_ld s) (i_dense it) key ;;
  if d_isComplete (i_dense it) || negb (cmp =? 0)%Z then Ok cmp else
  p_compare32 (s_ls s) (i_sparse it) key.

(** surf.go:23-42 HasOverlap *)
Definition hasOverlap32 (s : surf) (start stop : bytes) (includeEnd : bool) : res bool :=
  if Nat.eqb (ld_height (s_ld s)) 0 && Nat.eqb (ls_height (s_ls s)) 0 then Ok false else
  ' (it, _) <- it_seek32 s (newIterator32 s) start ;;
  if negb (it_valid it) then Ok false else
  cmp <- it_compare32 s it stop ;;
  let cmp := if (cmp =? couldBePositive)%Z then (-1)%Z else cmp in
  Ok (if includeEnd then (cmp <=? 0)%Z else (cmp <? 0)%Z).
