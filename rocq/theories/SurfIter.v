(** * Model of the SuRF iterators: denseIter (louds_dense.go:160-472), sparseIter
    (louds_sparse.go:188-514), Iterator and HasOverlap (surf.go:23-42, 86-272).

    - The filter an iterator points to is an argument of every function.
    - Key() returns a copy here; that it aliases the iterator's buffer is in SurfKeyMem.v.
    - [keyBuf[:n]] with n beyond the length (but within the capacity) would expose stale
      bytes in Go; here it is [Panic].
    - uint32 subtractions are checked ([sub_chk]: [Panic] instead of wrapping), except the
      final [level--] of denseIter.Seek, whose value is unused when it wraps (no dense levels). *)
From Verif Require Import Base BitsModel VecModel SurfModel.

(** bytes.Compare as the int -1, 0, 1 *)
Definition cmpZ (a b : bytes) : Z := match bcompare a b with Lt => (-1)%Z | Eq => 0%Z | Gt => 1%Z end.

(* ------------------------------------------------------------------ *)
(** ** Dense levels *)

(** louds_dense.go:160-162 nextPos *)
Definition ld_nextPos (ld : loudsDense) (pos : nat) : res nat :=
  d <- distanceToNextSetBit (rv_bv (ld_label ld)) pos ;; Ok (pos + d).
(** louds_dense.go:164-170 prevPos: [None] is the result (0, true). *)
Definition ld_prevPos (ld : loudsDense) (pos : nat) : res (option nat) :=
  d <- distanceToPrevSetBit (rv_bv (ld_label ld)) pos ;;
  Ok (if Nat.leb pos d then None else Some (pos - d)).

(** louds_dense.go:172-185 *)
Record denseIter := mkDI {
  d_valid : bool; d_search : bool; d_left : bool; d_right : bool;
  d_sendNode : nat; d_sendDepth : nat;
  d_key : bytes; d_level : nat; d_pos : list nat; d_plen : list nat; d_atPrefix : bool }.

Definition d_setLevel it l := mkDI (d_valid it) (d_search it) (d_left it) (d_right it) (d_sendNode it) (d_sendDepth it) (d_key it) l (d_pos it) (d_plen it) (d_atPrefix it).
Definition d_setFlags it v s l r := mkDI v s l r (d_sendNode it) (d_sendDepth it) (d_key it) (d_level it) (d_pos it) (d_plen it) (d_atPrefix it).
Definition d_setValid it v := d_setFlags it v (d_search it) (d_left it) (d_right it).
Definition d_complete_flags it := d_setFlags it true true true true.
Definition d_setAtPrefix it b := mkDI (d_valid it) (d_search it) (d_left it) (d_right it) (d_sendNode it) (d_sendDepth it) (d_key it) (d_level it) (d_pos it) (d_plen it) b.
Definition d_setSend it n d := mkDI (d_valid it) (d_search it) (d_left it) (d_right it) n d (d_key it) (d_level it) (d_pos it) (d_plen it) (d_atPrefix it).
Definition d_setKey it k := mkDI (d_valid it) (d_search it) (d_left it) (d_right it) (d_sendNode it) (d_sendDepth it) k (d_level it) (d_pos it) (d_plen it) (d_atPrefix it).
Definition d_setPos it p pl := mkDI (d_valid it) (d_search it) (d_left it) (d_right it) (d_sendNode it) (d_sendDepth it) (d_key it) (d_level it) p pl (d_atPrefix it).

(** louds_dense.go:187-191 Init of a new iterator *)
Definition d_init (ld : loudsDense) : denseIter :=
  mkDI false false false false 0 0 [] 0 (repeat 0 (ld_height ld)) (repeat 0 (ld_height ld)) false.
(** louds_dense.go:193-198 Reset *)
Definition d_reset (it : denseIter) : denseIter :=
  mkDI false (d_search it) (d_left it) (d_right it) (d_sendNode it) (d_sendDepth it) [] 0 (d_pos it) (d_plen it) false.

(** louds_dense.go:370-380 append *)
Definition d_append (ld : loudsDense) (it : denseIter) (pos : nat) : res denseIter :=
  prefix <- getPrefix (ld_prefix ld) (pos / 256) ;;
  ps <- upd (d_pos it) (d_level it) pos ;;
  base <- (if Nat.eqb (d_level it) 0 then Ok 0 else idx (d_plen it) (d_level it - 1)) ;;
  pl <- upd (d_plen it) (d_level it) (length prefix + 1 + base) ;;
  Ok (d_setKey (d_setPos it ps pl) (d_key it ++ prefix ++ [pos mod 256])).

(** louds_dense.go:389-410: the loop of MoveToLeftMostKey and what follows it;
    [todo] = height-1-level. *)
Fixpoint d_left_loop (todo : nat) (ld : loudsDense) (it : denseIter) (pos : nat) : res denseIter :=
  match todo with
  | O =>
      n <- ld_childNodeID ld pos ;;
      Ok (d_setFlags (d_setSend it n (length (d_key it))) true true false true)
  | S todo' =>
      let it := d_setLevel it (S (d_level it)) in
      nodeID <- ld_childNodeID ld pos ;;
      p <- rv_isSet (ld_isPrefix ld) nodeID ;;
      b <- sub_chk (nodeID * 256) 1 ;;
      pos <- ld_nextPos ld b ;;
      it <- d_append ld it pos ;;
      if p : bool then Ok (d_complete_flags (d_setAtPrefix it true)) else
      h <- rv_isSet (ld_hasChild ld) pos ;;
      if negb h then Ok (d_complete_flags it) else d_left_loop todo' ld it pos
  end.
(** louds_dense.go:382-411 MoveToLeftMostKey *)
Definition d_moveLeft (ld : loudsDense) (it : denseIter) : res denseIter :=
  pos <- idx (d_pos it) (d_level it) ;;
  h <- rv_isSet (ld_hasChild ld) pos ;;
  if negb h then Ok (d_complete_flags it) else d_left_loop (ld_height ld - 1 - d_level it) ld it pos.

(** louds_dense.go:420-439: the loop of MoveToRightMostKey. *)
Fixpoint d_right_loop (todo : nat) (ld : loudsDense) (it : denseIter) (pos : nat) : res denseIter :=
  match todo with
  | O =>
      n <- ld_childNodeID ld pos ;;
      Ok (d_setFlags (d_setSend it n (length (d_key it))) true true true false)
  | S todo' =>
      let it := d_setLevel it (S (d_level it)) in
      nodeID <- ld_childNodeID ld pos ;;
      pp <- ld_prevPos ld ((nodeID + 1) * 256) ;;
      match pp with
      | None => Ok (d_setValid it false)
      | Some pos =>
          it <- d_append ld it pos ;;
          h <- rv_isSet (ld_hasChild ld) pos ;;
          if negb h then Ok (d_complete_flags it) else d_right_loop todo' ld it pos
      end
  end.
(** louds_dense.go:413-440 MoveToRightMostKey *)
Definition d_moveRight (ld : loudsDense) (it : denseIter) : res denseIter :=
  pos <- idx (d_pos it) (d_level it) ;;
  h <- rv_isSet (ld_hasChild ld) pos ;;
  if negb h then Ok (d_complete_flags it) else d_right_loop (ld_height ld - 1 - d_level it) ld it pos.

(** louds_dense.go:442-448 SetToFirstInRoot *)
Definition d_setToFirst (ld : loudsDense) (it : denseIter) : res denseIter :=
  l <- rv_isSet (ld_label ld) 0 ;;
  if l : bool then d_append ld it 0 else p <- ld_nextPos ld 0 ;; d_append ld it p.
(** louds_dense.go:450-453 SetToLastInRoot *)
Definition d_setToLast (ld : loudsDense) (it : denseIter) : res denseIter :=
  pp <- ld_prevPos ld 256 ;; d_append ld it (match pp with Some p => p | None => 0 end).

(** louds_dense.go:455-458 setAt ([level] is always it.level) *)
Definition d_setAt (it : denseIter) (pos : nat) : res denseIter :=
  pl <- idx (d_plen it) (d_level it) ;;
  n <- sub_chk pl 1 ;;
  k <- slice (d_key it) 0 n ;;
  ps <- upd (d_pos it) (d_level it) pos ;;
  Ok (d_setKey (d_setPos it ps (d_plen it)) (k ++ [pos mod 256])).
(** louds_dense.go:460-462 truncate *)
Definition d_truncate (it : denseIter) : res denseIter :=
  pl <- idx (d_plen it) (d_level it) ;;
  k <- slice (d_key it) 0 pl ;;
  Ok (d_setKey it k).

(** louds_dense.go:210-224: from reading posInTrie[level] on, in Next. *)
Fixpoint d_next_climb (level : nat) (ld : loudsDense) (it : denseIter) : res denseIter :=
  pos <- idx (d_pos it) level ;;
  np <- ld_nextPos ld pos ;;
  if Nat.eqb pos np || Nat.ltb (pos / 256) (np / 256) then
    match level with
    | O => Ok (d_setValid (d_setLevel it 0) false)
    | S l => d_next_climb l ld it
    end
  else it <- d_setAt (d_setLevel it level) np ;; d_moveLeft ld it.
(** louds_dense.go:200-224 Next *)
Definition d_next (ld : loudsDense) (it : denseIter) : res denseIter :=
  if Nat.eqb (ld_height ld) 0 then Ok it else
  if d_atPrefix it then d_moveLeft ld (d_setAtPrefix it false) else
  d_next_climb (d_level it) ld it.

(** louds_dense.go:234-263: from reading posInTrie[level] on, in Prev. *)
Fixpoint d_prev_climb (level : nat) (ld : loudsDense) (it : denseIter) : res denseIter :=
  pos <- idx (d_pos it) level ;;
  pp <- ld_prevPos ld pos ;;
  match pp with
  | None => Ok (d_setValid (d_setLevel it level) false)
  | Some prevPos =>
      if Nat.ltb (prevPos / 256) (pos / 256) then
        p <- rv_isSet (ld_isPrefix ld) (pos / 256) ;;
        if p : bool then
          it <- d_truncate (d_setLevel it level) ;;
          Ok (d_complete_flags (d_setAtPrefix it true))
        else
          match level with
          | O => Ok (d_setValid (d_setLevel it 0) false)
          | S l => d_prev_climb l ld it
          end
      else it <- d_setAt (d_setLevel it level) prevPos ;; d_moveRight ld it
  end.
(** louds_dense.go:226-264 Prev *)
Definition d_prev (ld : loudsDense) (it : denseIter) : res denseIter :=
  if Nat.eqb (ld_height ld) 0 then Ok it else
  if d_atPrefix it then
    l <- sub_chk (d_level it) 1 ;;
    d_prev_climb l ld (d_setLevel (d_setAtPrefix it false) l)
  else d_prev_climb (d_level it) ld it.

(** louds_dense.go:464-472 compareSuffixGreaterThan *)
Definition d_compareSuffix (ld : loudsDense) (it : denseIter) (key : bytes) (pos level : nat) : res (denseIter * bool) :=
  sp <- ld_suffixPos ld pos false ;;
  cmp <- suffix_compare (ld_suffixes ld) key sp level ;;
  if (cmp <? 0)%Z then it <- d_next ld it ;; Ok (it, false)
  else Ok (d_complete_flags it, (cmp =? couldBePositive)%Z).

(** louds_dense.go:270-277 and louds_sparse.go:280-287: a node prefix against the rest of the key. *)
Definition prefix_cmp (prefix key : bytes) (depth : nat) : res Z :=
  match prefix with
  | [] => Ok 0%Z
  | _ => rest <- slice key depth (Nat.min (depth + length prefix) (length key)) ;; Ok (cmpZ prefix rest)
  end.

(** louds_dense.go:266-327 Seek; [todo] levels remain and it.level = height - todo. *)
Fixpoint d_seek_loop (todo : nat) (ld : loudsDense) (it : denseIter) (key : bytes) (nodeID depth : nat) : res (denseIter * bool) :=
  match todo with
  | O =>
      let it := d_setLevel it (Nat.pred (d_level it)) in
      Ok (d_setFlags (d_setSend it nodeID depth) true false true true, true)
  | S todo' =>
      prefix <- getPrefix (ld_prefix ld) nodeID ;;
      cmp <- prefix_cmp prefix key depth ;;
      if (cmp <? 0)%Z then
        if Nat.eqb nodeID 0 then Ok (d_setValid it false, false) else
        l <- sub_chk (d_level it) 1 ;;
        it <- d_next ld (d_setLevel it l) ;; Ok (it, false)
      else
        let pos := nodeID * 256 in
        let depth := depth + length prefix in
        if Nat.leb (length key) depth || (0 <? cmp)%Z then
          it <- (if Nat.ltb 0 pos then p <- ld_nextPos ld (pos - 1) ;; d_append ld it p else d_setToFirst ld it) ;;
          p <- rv_isSet (ld_isPrefix ld) nodeID ;;
          it <- (if p : bool then Ok (d_complete_flags (d_setAtPrefix it true)) else d_moveLeft ld it) ;;
          Ok (it, (cmp =? 0)%Z)
        else
          kb <- idx key depth ;;
          let pos := pos + kb in
          it <- d_append ld it pos ;;
          l <- rv_isSet (ld_label ld) pos ;;
          if negb l then it <- d_next ld it ;; Ok (it, false) else
          h <- rv_isSet (ld_hasChild ld) pos ;;
          if negb h then d_compareSuffix ld it key pos (depth + 1) else
          nodeID <- ld_childNodeID ld pos ;;
          d_seek_loop todo' ld (d_setLevel it (S (d_level it))) key nodeID (depth + 1)
  end.
Definition d_seek (ld : loudsDense) (it : denseIter) (key : bytes) : res (denseIter * bool) :=
  d_seek_loop (ld_height ld) ld (d_setLevel it 0) key 0 0.

(** louds_dense.go:329-334 Key *)
Definition d_Key (it : denseIter) : res bytes :=
  if d_atPrefix it then n <- sub_chk (length (d_key it)) 1 ;; slice (d_key it) 0 n else Ok (d_key it).
(** louds_dense.go:336-339 Value *)
Definition d_Value (ld : loudsDense) (it : denseIter) : res bytes :=
  pos <- idx (d_pos it) (d_level it) ;;
  vp <- ld_suffixPos ld pos (d_atPrefix it) ;;
  valueVector_get (ld_values ld) vp.
(** louds_dense.go:366-368 IsComplete *)
Definition d_isComplete (it : denseIter) : bool := d_search it && (d_left it && d_right it).
(** louds_dense.go:341-364 Compare *)
Definition d_compare (ld : loudsDense) (it : denseIter) (key : bytes) : res Z :=
  itKey <- d_Key it ;;
  let cmpLen := Nat.min (length itKey) (length key) in
  let cmp := cmpZ (firstn cmpLen itKey) (firstn cmpLen key) in
  if negb (cmp =? 0)%Z then Ok cmp else
  if Nat.ltb (length key) (length itKey) then Ok 1%Z else
  if Nat.eqb (length itKey) (length key) && d_atPrefix it then Ok 0%Z else
  if d_isComplete it then
    pos <- idx (d_pos it) (d_level it) ;;
    sp <- ld_suffixPos ld pos (d_atPrefix it) ;;
    suffix_compare (ld_suffixes ld) key sp (length itKey)
  else Ok cmp.

(* ------------------------------------------------------------------ *)
(** ** Sparse levels *)

(** louds_sparse.go:188-194 lastLabelPos *)
Definition ls_lastLabelPos (ls : loudsSparse) (nodeID : nat) : res nat :=
  r <- sub_chk (nodeID + 2) (ls_denseNodeCount ls) ;;
  if Nat.ltb (sv_numOnes (ls_louds ls)) r then sub_chk (bv_numBits (sv_bv (ls_louds ls))) 1
  else p <- select (ls_louds ls) r ;; sub_chk p 1.
(** louds_sparse.go:204-206 isEndOfNode *)
Definition ls_isEndOfNode (ls : loudsSparse) (pos : nat) : res bool :=
  last <- sub_chk (bv_numBits (sv_bv (ls_louds ls))) 1 ;;
  if Nat.eqb pos last then Ok true else bv_isSet (sv_bv (ls_louds ls)) (pos + 1).

(** louds_sparse.go:208-220 *)
Record sparseIter := mkSI {
  p_valid : bool; p_atTerm : bool; p_startNode : nat; p_startDepth : nat;
  p_level : nat; p_key : bytes; p_pos : list nat; p_node : list nat; p_plen : list nat }.

Definition p_setLevel it l := mkSI (p_valid it) (p_atTerm it) (p_startNode it) (p_startDepth it) l (p_key it) (p_pos it) (p_node it) (p_plen it).
Definition p_setValid it v := mkSI v (p_atTerm it) (p_startNode it) (p_startDepth it) (p_level it) (p_key it) (p_pos it) (p_node it) (p_plen it).
Definition p_setAtTerm it b := mkSI (p_valid it) b (p_startNode it) (p_startDepth it) (p_level it) (p_key it) (p_pos it) (p_node it) (p_plen it).
Definition p_setKey it k := mkSI (p_valid it) (p_atTerm it) (p_startNode it) (p_startDepth it) (p_level it) k (p_pos it) (p_node it) (p_plen it).
Definition p_setPos it ps ns pl := mkSI (p_valid it) (p_atTerm it) (p_startNode it) (p_startDepth it) (p_level it) (p_key it) ps ns pl.
Definition p_setStart it n d := mkSI (p_valid it) (p_atTerm it) n d (p_level it) (p_key it) (p_pos it) (p_node it) (p_plen it).

(** louds_sparse.go:222-228 Init of a new iterator *)
Definition p_init (ls : loudsSparse) : sparseIter :=
  let z := repeat 0 (ls_sparseLevels ls) in mkSI false false 0 0 0 [] z z z.
(** louds_sparse.go:384-389 Reset *)
Definition p_reset (it : sparseIter) : sparseIter :=
  mkSI false false (p_startNode it) (p_startDepth it) 0 [] (p_pos it) (p_node it) (p_plen it).

(** louds_sparse.go:475-485 append *)
Definition p_append (ls : loudsSparse) (it : sparseIter) (label : byte) (pos nodeID : nat) : res sparseIter :=
  pid <- ls_prefixID ls nodeID ;;
  prefix <- getPrefix (ls_prefix ls) pid ;;
  ps <- upd (p_pos it) (p_level it) pos ;;
  base <- (if Nat.eqb (p_level it) 0 then Ok 0 else idx (p_plen it) (p_level it - 1)) ;;
  pl <- upd (p_plen it) (p_level it) (length prefix + 1 + base) ;;
  ns <- upd (p_node it) (p_level it) nodeID ;;
  Ok (p_setKey (p_setPos it ps ns pl) (p_key it ++ prefix ++ [label])).

(** louds_sparse.go:401-407, 415-422: the iterator stands on the leaf at [pos]. *)
Definition p_finish (ls : loudsSparse) (it : sparseIter) (label : byte) (pos : nat) : res sparseIter :=
  t <- (if Nat.eqb label labelTerminator then e <- ls_isEndOfNode ls pos ;; Ok (negb e) else Ok false) ;;
  Ok (p_setValid (if t : bool then p_setAtTerm it true else it) true).

(** louds_sparse.go:409-425 and 446-462: the loops of MoveToLeftMostKey and
    MoveToRightMostKey; [childPos] is firstLabelPos or lastLabelPos. *)
Fixpoint p_down_loop (childPos : nat -> res nat) (todo : nat) (ls : loudsSparse) (it : sparseIter) (pos : nat) : res sparseIter :=
  match todo with
  | O => Panic
  | S todo' =>
      let it := p_setLevel it (S (p_level it)) in
      nodeID <- ls_childNodeID ls pos ;;
      pos <- childPos nodeID ;;
      label <- getLabel (ls_label ls) pos ;;
      h <- rv_isSet (ls_hasChild ls) pos ;;
      it <- p_append ls it label pos nodeID ;;
      if negb h then p_finish ls it label pos else p_down_loop childPos todo' ls it pos
  end.
(** louds_sparse.go:391-426 MoveToLeftMostKey, 428-463 MoveToRightMostKey *)
Definition p_move (childPos : nat -> res nat) (ls : loudsSparse) (it : sparseIter) : res sparseIter :=
  it <- (match p_key it with
         | [] => pos <- childPos (p_startNode it) ;;
                 label <- getLabel (ls_label ls) pos ;;
                 p_append ls it label pos (p_startNode it)
         | _ => Ok it
         end) ;;
  pos <- idx (p_pos it) (p_level it) ;;
  label <- getLabel (ls_label ls) pos ;;
  h <- rv_isSet (ls_hasChild ls) pos ;;
  if negb h then p_finish ls it label pos else p_down_loop childPos (ls_sparseLevels ls - p_level it) ls it pos.
Definition p_moveLeft (ls : loudsSparse) := p_move (ls_firstLabelPos ls) ls.
Definition p_moveRight (ls : loudsSparse) := p_move (ls_lastLabelPos ls) ls.

(** louds_sparse.go:487-490 setAt *)
Definition p_setAt (ls : loudsSparse) (it : sparseIter) (pos : nat) : res sparseIter :=
  pl <- idx (p_plen it) (p_level it) ;;
  n <- sub_chk pl 1 ;;
  k <- slice (p_key it) 0 n ;;
  label <- getLabel (ls_label ls) pos ;;
  ps <- upd (p_pos it) (p_level it) pos ;;
  Ok (p_setKey (p_setPos it ps (p_node it) (p_plen it)) (k ++ [label])).

(** louds_sparse.go:230-247 Next *)
Fixpoint p_next_climb (level : nat) (ls : loudsSparse) (it : sparseIter) : res sparseIter :=
  pos0 <- idx (p_pos it) level ;;
  _ <- idx (p_node it) level ;;
  let pos := pos0 + 1 in
  up <- (if Nat.leb (bv_numBits (sv_bv (ls_louds ls))) pos then Ok true else bv_isSet (sv_bv (ls_louds ls)) pos) ;;
  if up : bool then
    match level with
    | O => Ok (p_setKey (p_setValid (p_setLevel it 0) false) [])
    | S l => p_next_climb l ls it
    end
  else it <- p_setAt ls (p_setLevel it level) pos ;; p_moveLeft ls it.
Definition p_next (ls : loudsSparse) (it : sparseIter) : res sparseIter :=
  p_next_climb (p_level it) ls (p_setAtTerm it false).

(** louds_sparse.go:258-269: the loop of Prev. *)
Fixpoint p_prev_climb (level : nat) (ls : loudsSparse) (it : sparseIter) : res sparseIter :=
  pos <- idx (p_pos it) level ;;
  _ <- idx (p_node it) level ;;
  b <- bv_isSet (sv_bv (ls_louds ls)) pos ;;
  if b : bool then
    match level with
    | O => Ok (p_setKey (p_setValid (p_setLevel it 0) false) [])
    | S l => p_prev_climb l ls it
    end
  else
    q <- sub_chk pos 1 ;;
    it <- p_setAt ls (p_setLevel it level) q ;; p_moveRight ls it.
(** louds_sparse.go:249-270 Prev *)
Definition p_prev (ls : loudsSparse) (it : sparseIter) : res sparseIter :=
  let it := p_setAtTerm it false in
  pos <- idx (p_pos it) (p_level it) ;;
  _ <- idx (p_node it) (p_level it) ;;
  if Nat.eqb pos 0 then Ok (p_setValid it false) else p_prev_climb (p_level it) ls it.

(** louds_sparse.go:496-504 moveToLeftInNextSubTrie *)
Definition p_leftInNext (ls : loudsSparse) (it : sparseIter) (pos nodeID nodeSize : nat) (label : byte) : res sparseIter :=
  ' (pos, ok) <- label_search_gt (ls_label ls) label pos nodeSize ;;
  l <- getLabel (ls_label ls) pos ;;
  it <- p_append ls it l pos nodeID ;;
  if ok : bool then p_moveLeft ls it else p_next ls it.

(** louds_sparse.go:506-514 compareSuffixGreaterThan *)
Definition p_compareSuffix (ls : loudsSparse) (it : sparseIter) (key : bytes) (pos level : nat) : res (sparseIter * bool) :=
  sp <- ls_suffixPos ls pos ;;
  cmp <- suffix_compare (ls_suffixes ls) key sp level ;;
  if (cmp <? 0)%Z then it <- p_next ls it ;; Ok (it, false)
  else Ok (p_setValid it true, (cmp =? couldBePositive)%Z).

(** louds_sparse.go:272-338 Seek *)
Fixpoint p_seek_loop (todo : nat) (ls : loudsSparse) (it : sparseIter) (key : bytes) (nodeID pos depth : nat) : res (sparseIter * bool) :=
  match todo with
  | O =>
      (* louds_sparse.go:324-337 *)
      l <- getLabel (ls_label ls) pos ;;
      t <- (if Nat.eqb l labelTerminator then
              h <- rv_isSet (ls_hasChild ls) pos ;;
              if negb h then e <- ls_isEndOfNode ls pos ;; Ok (negb e) else Ok false
            else Ok false) ;;
      if t : bool then
        it <- p_append ls it labelTerminator pos nodeID ;;
        Ok (p_setValid (p_setAtTerm it true) true, false)
      else if Nat.leb (length key) depth then
        it <- p_moveLeft ls it ;; Ok (it, false)
      else Ok (p_setValid it true, true)
  | S todo' =>
      pid <- ls_prefixID ls nodeID ;;
      prefix <- getPrefix (ls_prefix ls) pid ;;
      cmp <- prefix_cmp prefix key depth ;;
      if (cmp <? 0)%Z then
        if Nat.eqb (p_level it) 0 then Ok (p_setValid it false, false) else
        it <- p_next ls (p_setLevel it (p_level it - 1)) ;; Ok (it, false)
      else
        let depth := depth + length prefix in
        if Nat.leb (length key) depth || (0 <? cmp)%Z then
          l <- getLabel (ls_label ls) pos ;;
          it <- p_append ls it l pos nodeID ;;
          it <- p_moveLeft ls it ;; Ok (it, false)
        else
          kb <- idx key depth ;;
          size <- ls_nodeSize ls pos ;;
          ' (pos, ok) <- label_search (ls_label ls) kb pos size ;;
          if negb ok then
            it <- p_leftInNext ls it pos nodeID size kb ;; Ok (it, false)
          else
          it <- p_append ls it kb pos nodeID ;;
          h <- rv_isSet (ls_hasChild ls) pos ;;
          if negb h then p_compareSuffix ls it key pos (depth + 1) else
          nodeID <- ls_childNodeID ls pos ;;
          pos <- ls_firstLabelPos ls nodeID ;;
          p_seek_loop todo' ls (p_setLevel it (S (p_level it))) key nodeID pos (depth + 1)
  end.
Definition p_seek (ls : loudsSparse) (it : sparseIter) (key : bytes) : res (sparseIter * bool) :=
  pos <- ls_firstLabelPos ls (p_startNode it) ;;
  p_seek_loop (ls_sparseLevels ls) ls (p_setLevel it 0) key (p_startNode it) pos (p_startDepth it).

(** louds_sparse.go:340-345 Key, 347-350 Value *)
Definition p_Key (it : sparseIter) : res bytes :=
  if p_atTerm it then n <- sub_chk (length (p_key it)) 1 ;; slice (p_key it) 0 n else Ok (p_key it).
Definition p_Value (ls : loudsSparse) (it : sparseIter) : res bytes :=
  pos <- idx (p_pos it) (p_level it) ;;
  vp <- ls_suffixPos ls pos ;;
  valueVector_get (ls_values ls) vp.
(** louds_sparse.go:352-382 Compare *)
Definition p_compare (ls : loudsSparse) (it : sparseIter) (key : bytes) : res Z :=
  itKey <- p_Key it ;;
  if Nat.ltb (length key) (p_startDepth it) then Panic else
  if Nat.eqb (p_startDepth it) (length key) then Ok (if p_atTerm it then 0%Z else 1%Z) else
  key <- slice_from key (p_startDepth it) ;;
  let cmpLen := Nat.min (length itKey) (length key) in
  let cmp := cmpZ (firstn cmpLen itKey) (firstn cmpLen key) in
  if negb (cmp =? 0)%Z then Ok cmp else
  if Nat.ltb (length key) (length itKey) then Ok 1%Z else
  if Nat.eqb (length itKey) (length key) && p_atTerm it then Ok 0%Z else
  pos <- idx (p_pos it) (p_level it) ;;
  sp <- ls_suffixPos ls pos ;;
  suffix_compare (ls_suffixes ls) key sp (length itKey).

(** louds_sparse.go:465-473 SetToFirstInRoot, SetToLastInRoot *)
Definition p_setToFirst (ls : loudsSparse) (it : sparseIter) : res sparseIter :=
  ps <- upd (p_pos it) 0 0 ;;
  l <- getLabel (ls_label ls) 0 ;;
  Ok (p_setKey (p_setPos it ps (p_node it) (p_plen it)) [l]).
Definition p_setToLast (ls : loudsSparse) (it : sparseIter) : res sparseIter :=
  p <- ls_lastLabelPos ls 0 ;;
  ps <- upd (p_pos it) 0 p ;;
  l <- getLabel (ls_label ls) p ;;
  Ok (p_setKey (p_setPos it ps (p_node it) (p_plen it)) [l]).

(* ------------------------------------------------------------------ *)
(** ** Iterator (surf.go:86-272) *)

Record iter := mkIter { i_dense : denseIter; i_sparse : sparseIter }.

(** surf.go:93-99 NewIterator *)
Definition newIterator (s : surf) : iter := mkIter (d_init (s_ld s)) (p_init (s_ls s)).
(** surf.go:101-104 Valid *)
Definition it_valid (it : iter) : bool :=
  d_valid (i_dense it) && (d_isComplete (i_dense it) || p_valid (i_sparse it)).
(** surf.go:203-207 Reset *)
Definition it_reset (it : iter) : iter := mkIter (d_reset (i_dense it)) (p_reset (i_sparse it)).
(** surf.go:209-212 passToSparse *)
Definition passToSparse (it : iter) : iter :=
  mkIter (i_dense it) (p_setStart (i_sparse it) (d_sendNode (i_dense it)) (d_sendDepth (i_dense it))).
Definition it_sparse (it : iter) (f : sparseIter -> res sparseIter) : res iter :=
  p <- f (i_sparse it) ;; Ok (mkIter (i_dense it) p).

(** surf.go:214-230 incrDenseIter (its result is unused) *)
Definition incrDense (s : surf) (it : iter) : res iter :=
  if negb (d_valid (i_dense it)) then Ok it else
  d <- d_next (s_ld s) (i_dense it) ;;
  let it := mkIter d (i_sparse it) in
  if negb (d_valid d) then Ok it else
  if d_left d then Ok it else
  it_sparse (passToSparse it) (p_moveLeft (s_ls s)).
(** surf.go:106-112 Next with 232-238 incrSparseIter *)
Definition it_next (s : surf) (it : iter) : res iter :=
  if p_valid (i_sparse it) then
    p <- p_next (s_ls s) (i_sparse it) ;;
    let it := mkIter (i_dense it) p in
    if p_valid p then Ok it else incrDense s it
  else incrDense s it.
(** surf.go:240-256 decrDenseIter *)
Definition decrDense (s : surf) (it : iter) : res iter :=
  if negb (d_valid (i_dense it)) then Ok it else
  d <- d_prev (s_ld s) (i_dense it) ;;
  let it := mkIter d (i_sparse it) in
  if negb (d_valid d) then Ok it else
  if d_right d then Ok it else
  it_sparse (passToSparse it) (p_moveRight (s_ls s)).
(** surf.go:114-120 Prev with 258-264 decrSparseIter *)
Definition it_prev (s : surf) (it : iter) : res iter :=
  if p_valid (i_sparse it) then
    p <- p_prev (s_ls s) (i_sparse it) ;;
    let it := mkIter (i_dense it) p in
    if p_valid p then Ok it else decrDense s it
  else decrDense s it.

(** surf.go:122-150 Seek *)
Definition it_seek (s : surf) (it : iter) (key : bytes) : res (iter * bool) :=
  let it := it_reset it in
  if Nat.eqb (ls_height (s_ls s)) 0 && Nat.eqb (ld_height (s_ld s)) 0 then Ok (it, false) else
  ' (d, fp) <- d_seek (s_ld s) (i_dense it) key ;;
  let it := mkIter d (i_sparse it) in
  if negb (d_valid d) || d_isComplete d then Ok (it, fp) else
  if negb (d_search d) then
    let it := passToSparse it in
    ' (p, fp) <- p_seek (s_ls s) (i_sparse it) key ;;
    let it := mkIter d p in
    it <- (if negb (p_valid p) then incrDense s it else Ok it) ;;
    Ok (it, fp)
  else if negb (d_left d) then
    it <- it_sparse (passToSparse it) (p_moveLeft (s_ls s)) ;; Ok (it, fp)
  else Panic.

(** surf.go:152-167 SeekToFirst *)
Definition it_seekToFirst (s : surf) (it : iter) : res iter :=
  let it := it_reset it in
  if Nat.ltb 0 (ld_height (s_ld s)) then
    d <- d_setToFirst (s_ld s) (i_dense it) ;;
    d <- d_moveLeft (s_ld s) d ;;
    let it := mkIter d (i_sparse it) in
    if d_left d then Ok it else it_sparse (passToSparse it) (p_moveLeft (s_ls s))
  else if Nat.ltb 0 (ls_height (s_ls s)) then
    it_sparse it (fun p => p <- p_setToFirst (s_ls s) p ;; p_moveLeft (s_ls s) p)
  else Ok it.
(** surf.go:169-184 SeekToLast *)
Definition it_seekToLast (s : surf) (it : iter) : res iter :=
  let it := it_reset it in
  if Nat.ltb 0 (ld_height (s_ld s)) then
    d <- d_setToLast (s_ld s) (i_dense it) ;;
    d <- d_moveRight (s_ld s) d ;;
    let it := mkIter d (i_sparse it) in
    if d_right d then Ok it else it_sparse (passToSparse it) (p_moveRight (s_ls s))
  else if Nat.ltb 0 (ls_height (s_ls s)) then
    it_sparse it (fun p => p <- p_setToLast (s_ls s) p ;; p_moveRight (s_ls s) p)
  else Ok it.

(** surf.go:186-193 Key, 195-201 Value *)
Definition it_key (it : iter) : res bytes :=
  dk <- d_Key (i_dense it) ;;
  if d_isComplete (i_dense it) then Ok dk else
  pk <- p_Key (i_sparse it) ;; Ok (dk ++ pk).
Definition it_value (s : surf) (it : iter) : res bytes :=
  if d_isComplete (i_dense it) then d_Value (s_ld s) (i_dense it) else p_Value (s_ls s) (i_sparse it).

(** surf.go:266-272 compare *)
Definition it_compare (s : surf) (it : iter) (key : bytes) : res Z :=
  cmp <- d_compare (s_ld s) (i_dense it) key ;;
  if d_isComplete (i_dense it) || negb (cmp =? 0)%Z then Ok cmp else
  p_compare (s_ls s) (i_sparse it) key.

(** surf.go:23-42 HasOverlap *)
Definition hasOverlap (s : surf) (start stop : bytes) (includeEnd : bool) : res bool :=
  if Nat.eqb (ld_height (s_ld s)) 0 && Nat.eqb (ls_height (s_ls s)) 0 then Ok false else
  ' (it, _) <- it_seek s (newIterator s) start ;;
  if negb (it_valid it) then Ok false else
  cmp <- it_compare s it stop ;;
  let cmp := if (cmp =? couldBePositive)%Z then (-1)%Z else cmp in
  Ok (if includeEnd then (cmp <=? 0)%Z else (cmp <? 0)%Z).
