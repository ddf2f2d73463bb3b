(** * The SuRF iterators with the memory behind their key buffers.

    denseIter, sparseIter and Iterator each keep a [keyBuf []byte] that is truncated and appended
    to in place, and Iterator.Key hands slices of these arrays to the caller. Here a buffer is the
    list of all arrays it ever used, the one in use, and a length; [grow] is how much spare
    capacity append asks for when it has to move to a new array. Everything else is as in
    SurfIter.v, function by function; the functions there have plain byte lists for the buffers.
    Not modelled: the garbage collector (arrays are never reused), Compare and HasOverlap (they
    only read the buffers). *)
From Verif Require Import Base BitsModel VecModel SurfModel SurfIter.

(** A Go []byte that starts at the beginning of its array, with the arrays it used before. *)
Record buf := mkBuf { b_mem : list bytes; b_cur : nat; b_len : nat }.
Definition b_arr (b : buf) : bytes := nth (b_cur b) (b_mem b) [].
(** The bytes of the slice. *)
Definition b_view (b : buf) : bytes := firstn (b_len b) (b_arr b).
Definition nil_buf : buf := mkBuf [[]] 0 0.
(** x[:0] *)
Definition b_clear (b : buf) : buf := mkBuf (b_mem b) (b_cur b) 0.
(** x[:n]: allowed up to the capacity *)
Definition b_trunc (b : buf) (n : nat) : res buf :=
  if Nat.leb n (length (b_arr b)) then Ok (mkBuf (b_mem b) (b_cur b) n) else Panic.
(** The array [a] with the bytes [l] stored from position [i] on. *)
Definition splice (a : bytes) (i : nat) (l : bytes) : bytes := firstn i a ++ l ++ skipn (i + length l) a.
Definition set_arr (m : list bytes) (c : nat) (a : bytes) : list bytes := firstn c m ++ a :: skipn (S c) m.

Section Grow.
Variable grow : nat -> nat -> nat.

(** append(x, l...): in place if the capacity allows, else in a new zeroed array *)
Definition b_append (b : buf) (l : bytes) : buf :=
  let n := b_len b + length l in
  if Nat.leb n (length (b_arr b)) then mkBuf (set_arr (b_mem b) (b_cur b) (splice (b_arr b) (b_len b) l)) (b_cur b) n
  else mkBuf (b_mem b ++ [b_view b ++ l ++ repeat 0 (grow (length (b_arr b)) n)]) (length (b_mem b)) n.

(* ------------------------------------------------------------------ *)
(** ** Dense levels *)

(** louds_dense.go:172-185 *)
Record mdIter := mkMD {
  md_valid : bool; md_search : bool; md_left : bool; md_right : bool;
  md_sendNode : nat; md_sendDepth : nat;
  md_key : buf; md_level : nat; md_pos : list nat; md_plen : list nat; md_atPrefix : bool }.

Definition md_setLevel it l := mkMD (md_valid it) (md_search it) (md_left it) (md_right it) (md_sendNode it) (md_sendDepth it) (md_key it) l (md_pos it) (md_plen it) (md_atPrefix it).
Definition md_setFlags it v s l r := mkMD v s l r (md_sendNode it) (md_sendDepth it) (md_key it) (md_level it) (md_pos it) (md_plen it) (md_atPrefix it).
Definition md_setValid it v := md_setFlags it v (md_search it) (md_left it) (md_right it).
Definition md_complete_flags it := md_setFlags it true true true true.
Definition md_setAtPrefix it b := mkMD (md_valid it) (md_search it) (md_left it) (md_right it) (md_sendNode it) (md_sendDepth it) (md_key it) (md_level it) (md_pos it) (md_plen it) b.
Definition md_setSend it n d := mkMD (md_valid it) (md_search it) (md_left it) (md_right it) n d (md_key it) (md_level it) (md_pos it) (md_plen it) (md_atPrefix it).
Definition md_setKey it k := mkMD (md_valid it) (md_search it) (md_left it) (md_right it) (md_sendNode it) (md_sendDepth it) k (md_level it) (md_pos it) (md_plen it) (md_atPrefix it).
Definition md_setPos it p pl := mkMD (md_valid it) (md_search it) (md_left it) (md_right it) (md_sendNode it) (md_sendDepth it) (md_key it) (md_level it) p pl (md_atPrefix it).

(** louds_dense.go:187-191 Init of a new iterator *)
Definition md_init (ld : loudsDense) : mdIter :=
  mkMD false false false false 0 0 nil_buf 0 (repeat 0 (ld_height ld)) (repeat 0 (ld_height ld)) false.
(** louds_dense.go:193-198 Reset *)
Definition md_reset (it : mdIter) : mdIter :=
  mkMD false (md_search it) (md_left it) (md_right it) (md_sendNode it) (md_sendDepth it) (b_clear (md_key it)) 0 (md_pos it) (md_plen it) false.

(** louds_dense.go:370-380 append *)
Definition md_append (ld : loudsDense) (it : mdIter) (pos : nat) : res mdIter :=
  prefix <- getPrefix (ld_prefix ld) (pos / 256) ;;
  ps <- upd (md_pos it) (md_level it) pos ;;
  base <- (if Nat.eqb (md_level it) 0 then Ok 0 else idx (md_plen it) (md_level it - 1)) ;;
  pl <- upd (md_plen it) (md_level it) (length prefix + 1 + base) ;;
  Ok (md_setKey (md_setPos it ps pl) (b_append (b_append (md_key it) prefix) [pos mod 256])).

(** louds_dense.go:389-410: the loop of MoveToLeftMostKey and what follows it;
    [todo] = height-1-level. *)
Fixpoint md_left_loop (todo : nat) (ld : loudsDense) (it : mdIter) (pos : nat) : res mdIter :=
  match todo with
  | O =>
      n <- ld_childNodeID ld pos ;;
      Ok (md_setFlags (md_setSend it n (b_len (md_key it))) true true false true)
  | S todo' =>
      let it := md_setLevel it (S (md_level it)) in
      nodeID <- ld_childNodeID ld pos ;;
      p <- rv_isSet (ld_isPrefix ld) nodeID ;;
      b <- sub_chk (nodeID * 256) 1 ;;
      pos <- ld_nextPos ld b ;;
      it <- md_append ld it pos ;;
      if p : bool then Ok (md_complete_flags (md_setAtPrefix it true)) else
      h <- rv_isSet (ld_hasChild ld) pos ;;
      if negb h then Ok (md_complete_flags it) else md_left_loop todo' ld it pos
  end.
(** louds_dense.go:382-411 MoveToLeftMostKey *)
Definition md_moveLeft (ld : loudsDense) (it : mdIter) : res mdIter :=
  pos <- idx (md_pos it) (md_level it) ;;
  h <- rv_isSet (ld_hasChild ld) pos ;;
  if negb h then Ok (md_complete_flags it) else md_left_loop (ld_height ld - 1 - md_level it) ld it pos.

(** louds_dense.go:420-439: the loop of MoveToRightMostKey. *)
Fixpoint md_right_loop (todo : nat) (ld : loudsDense) (it : mdIter) (pos : nat) : res mdIter :=
  match todo with
  | O =>
      n <- ld_childNodeID ld pos ;;
      Ok (md_setFlags (md_setSend it n (b_len (md_key it))) true true true false)
  | S todo' =>
      let it := md_setLevel it (S (md_level it)) in
      nodeID <- ld_childNodeID ld pos ;;
      pp <- ld_prevPos ld ((nodeID + 1) * 256) ;;
      match pp with
      | None => Ok (md_setValid it false)
      | Some pos =>
          it <- md_append ld it pos ;;
          h <- rv_isSet (ld_hasChild ld) pos ;;
          if negb h then Ok (md_complete_flags it) else md_right_loop todo' ld it pos
      end
  end.
(** louds_dense.go:413-440 MoveToRightMostKey *)
Definition md_moveRight (ld : loudsDense) (it : mdIter) : res mdIter :=
  pos <- idx (md_pos it) (md_level it) ;;
  h <- rv_isSet (ld_hasChild ld) pos ;;
  if negb h then Ok (md_complete_flags it) else md_right_loop (ld_height ld - 1 - md_level it) ld it pos.

(** louds_dense.go:442-448 SetToFirstInRoot *)
Definition md_setToFirst (ld : loudsDense) (it : mdIter) : res mdIter :=
  l <- rv_isSet (ld_label ld) 0 ;;
  if l : bool then md_append ld it 0 else p <- ld_nextPos ld 0 ;; md_append ld it p.
(** louds_dense.go:450-453 SetToLastInRoot *)
Definition md_setToLast (ld : loudsDense) (it : mdIter) : res mdIter :=
  pp <- ld_prevPos ld 256 ;; md_append ld it (match pp with Some p => p | None => 0 end).

(** louds_dense.go:455-458 setAt ([level] is always it.level) *)
Definition md_setAt (it : mdIter) (pos : nat) : res mdIter :=
  pl <- idx (md_plen it) (md_level it) ;;
  n <- sub_chk pl 1 ;;
  k <- b_trunc (md_key it) n ;;
  ps <- upd (md_pos it) (md_level it) pos ;;
  Ok (md_setKey (md_setPos it ps (md_plen it)) (b_append k [pos mod 256])).
(** louds_dense.go:460-462 truncate *)
Definition md_truncate (it : mdIter) : res mdIter :=
  pl <- idx (md_plen it) (md_level it) ;;
  k <- b_trunc (md_key it) pl ;;
  Ok (md_setKey it k).

(** louds_dense.go:210-224: from reading posInTrie[level] on, in Next. *)
Fixpoint md_next_climb (level : nat) (ld : loudsDense) (it : mdIter) : res mdIter :=
  pos <- idx (md_pos it) level ;;
  np <- ld_nextPos ld pos ;;
  if Nat.eqb pos np || Nat.ltb (pos / 256) (np / 256) then
    match level with
    | O => Ok (md_setValid (md_setLevel it 0) false)
    | S l => md_next_climb l ld it
    end
  else it <- md_setAt (md_setLevel it level) np ;; md_moveLeft ld it.
(** louds_dense.go:200-224 Next *)
Definition md_next (ld : loudsDense) (it : mdIter) : res mdIter :=
  if Nat.eqb (ld_height ld) 0 then Ok it else
  if md_atPrefix it then md_moveLeft ld (md_setAtPrefix it false) else
  md_next_climb (md_level it) ld it.

(** louds_dense.go:234-263: from reading posInTrie[level] on, in Prev. *)
Fixpoint md_prev_climb (level : nat) (ld : loudsDense) (it : mdIter) : res mdIter :=
  pos <- idx (md_pos it) level ;;
  pp <- ld_prevPos ld pos ;;
  match pp with
  | None => Ok (md_setValid (md_setLevel it level) false)
  | Some prevPos =>
      if Nat.ltb (prevPos / 256) (pos / 256) then
        p <- rv_isSet (ld_isPrefix ld) (pos / 256) ;;
        if p : bool then
          it <- md_truncate (md_setLevel it level) ;;
          Ok (md_complete_flags (md_setAtPrefix it true))
        else
          match level with
          | O => Ok (md_setValid (md_setLevel it 0) false)
          | S l => md_prev_climb l ld it
          end
      else it <- md_setAt (md_setLevel it level) prevPos ;; md_moveRight ld it
  end.
(** louds_dense.go:226-264 Prev *)
Definition md_prev (ld : loudsDense) (it : mdIter) : res mdIter :=
  if Nat.eqb (ld_height ld) 0 then Ok it else
  if md_atPrefix it then
    l <- sub_chk (md_level it) 1 ;;
    md_prev_climb l ld (md_setLevel (md_setAtPrefix it false) l)
  else md_prev_climb (md_level it) ld it.

(** louds_dense.go:464-472 compareSuffixGreaterThan *)
Definition md_compareSuffix (ld : loudsDense) (it : mdIter) (key : bytes) (pos level : nat) : res (mdIter * bool) :=
  sp <- ld_suffixPos ld pos false ;;
  cmp <- suffix_compare (ld_suffixes ld) key sp level ;;
  if (cmp <? 0)%Z then it <- md_next ld it ;; Ok (it, false)
  else Ok (md_complete_flags it, (cmp =? couldBePositive)%Z).

(** louds_dense.go:266-327 Seek; [todo] levels remain and it.level = height - todo. *)
Fixpoint md_seek_loop (todo : nat) (ld : loudsDense) (it : mdIter) (key : bytes) (nodeID depth : nat) : res (mdIter * bool) :=
  match todo with
  | O =>
      let it := md_setLevel it (Nat.pred (md_level it)) in
      Ok (md_setFlags (md_setSend it nodeID depth) true false true true, true)
  | S todo' =>
      prefix <- getPrefix (ld_prefix ld) nodeID ;;
      cmp <- prefix_cmp prefix key depth ;;
      if (cmp <? 0)%Z then
        if Nat.eqb nodeID 0 then Ok (md_setValid it false, false) else
        l <- sub_chk (md_level it) 1 ;;
        it <- md_next ld (md_setLevel it l) ;; Ok (it, false)
      else
        let pos := nodeID * 256 in
        let depth := depth + length prefix in
        if Nat.leb (length key) depth || (0 <? cmp)%Z then
          it <- (if Nat.ltb 0 pos then p <- ld_nextPos ld (pos - 1) ;; md_append ld it p else md_setToFirst ld it) ;;
          p <- rv_isSet (ld_isPrefix ld) nodeID ;;
          it <- (if p : bool then Ok (md_complete_flags (md_setAtPrefix it true)) else md_moveLeft ld it) ;;
          Ok (it, (cmp =? 0)%Z)
        else
          kb <- idx key depth ;;
          let pos := pos + kb in
          it <- md_append ld it pos ;;
          l <- rv_isSet (ld_label ld) pos ;;
          if negb l then it <- md_next ld it ;; Ok (it, false) else
          h <- rv_isSet (ld_hasChild ld) pos ;;
          if negb h then md_compareSuffix ld it key pos (depth + 1) else
          nodeID <- ld_childNodeID ld pos ;;
          md_seek_loop todo' ld (md_setLevel it (S (md_level it))) key nodeID (depth + 1)
  end.
Definition md_seek (ld : loudsDense) (it : mdIter) (key : bytes) : res (mdIter * bool) :=
  md_seek_loop (ld_height ld) ld (md_setLevel it 0) key 0 0.

(** louds_dense.go:329-334 Key: a slice of the buffer *)
Definition md_Key (it : mdIter) : res buf :=
  if md_atPrefix it then n <- sub_chk (b_len (md_key it)) 1 ;; b_trunc (md_key it) n else Ok (md_key it).
(** louds_dense.go:336-339 Value *)
Definition md_Value (ld : loudsDense) (it : mdIter) : res bytes :=
  pos <- idx (md_pos it) (md_level it) ;;
  vp <- ld_suffixPos ld pos (md_atPrefix it) ;;
  valueVector_get (ld_values ld) vp.
(** louds_dense.go:366-368 IsComplete *)
Definition md_isComplete (it : mdIter) : bool := md_search it && (md_left it && md_right it).

(* ------------------------------------------------------------------ *)
(** ** Sparse levels *)

(** louds_sparse.go:208-220 *)
Record mpIter := mkMP {
  mp_valid : bool; mp_atTerm : bool; mp_startNode : nat; mp_startDepth : nat;
  mp_level : nat; mp_key : buf; mp_pos : list nat; mp_node : list nat; mp_plen : list nat }.

Definition mp_setLevel it l := mkMP (mp_valid it) (mp_atTerm it) (mp_startNode it) (mp_startDepth it) l (mp_key it) (mp_pos it) (mp_node it) (mp_plen it).
Definition mp_setValid it v := mkMP v (mp_atTerm it) (mp_startNode it) (mp_startDepth it) (mp_level it) (mp_key it) (mp_pos it) (mp_node it) (mp_plen it).
Definition mp_setAtTerm it b := mkMP (mp_valid it) b (mp_startNode it) (mp_startDepth it) (mp_level it) (mp_key it) (mp_pos it) (mp_node it) (mp_plen it).
Definition mp_setKey it k := mkMP (mp_valid it) (mp_atTerm it) (mp_startNode it) (mp_startDepth it) (mp_level it) k (mp_pos it) (mp_node it) (mp_plen it).
Definition mp_setPos it ps ns pl := mkMP (mp_valid it) (mp_atTerm it) (mp_startNode it) (mp_startDepth it) (mp_level it) (mp_key it) ps ns pl.
Definition mp_setStart it n d := mkMP (mp_valid it) (mp_atTerm it) n d (mp_level it) (mp_key it) (mp_pos it) (mp_node it) (mp_plen it).

(** louds_sparse.go:222-228 Init of a new iterator *)
Definition mp_init (ls : loudsSparse) : mpIter :=
  let z := repeat 0 (ls_sparseLevels ls) in mkMP false false 0 0 0 nil_buf z z z.
(** louds_sparse.go:384-389 Reset *)
Definition mp_reset (it : mpIter) : mpIter :=
  mkMP false false (mp_startNode it) (mp_startDepth it) 0 (b_clear (mp_key it)) (mp_pos it) (mp_node it) (mp_plen it).

(** louds_sparse.go:475-485 append *)
Definition mp_append (ls : loudsSparse) (it : mpIter) (label : byte) (pos nodeID : nat) : res mpIter :=
  pid <- ls_prefixID ls nodeID ;;
  prefix <- getPrefix (ls_prefix ls) pid ;;
  ps <- upd (mp_pos it) (mp_level it) pos ;;
  base <- (if Nat.eqb (mp_level it) 0 then Ok 0 else idx (mp_plen it) (mp_level it - 1)) ;;
  pl <- upd (mp_plen it) (mp_level it) (length prefix + 1 + base) ;;
  ns <- upd (mp_node it) (mp_level it) nodeID ;;
  Ok (mp_setKey (mp_setPos it ps ns pl) (b_append (b_append (mp_key it) prefix) [label])).

(** louds_sparse.go:401-407, 415-422: the iterator stands on the leaf at [pos]. *)
Definition mp_finish (ls : loudsSparse) (it : mpIter) (label : byte) (pos : nat) : res mpIter :=
  t <- (if Nat.eqb label labelTerminator then e <- ls_isEndOfNode ls pos ;; Ok (negb e) else Ok false) ;;
  Ok (mp_setValid (if t : bool then mp_setAtTerm it true else it) true).

(** louds_sparse.go:409-425 and 446-462: the loops of MoveToLeftMostKey and
    MoveToRightMostKey; [childPos] is firstLabelPos or lastLabelPos. *)
Fixpoint mp_down_loop (childPos : nat -> res nat) (todo : nat) (ls : loudsSparse) (it : mpIter) (pos : nat) : res mpIter :=
  match todo with
  | O => Panic
  | S todo' =>
      let it := mp_setLevel it (S (mp_level it)) in
      nodeID <- ls_childNodeID ls pos ;;
      pos <- childPos nodeID ;;
      label <- getLabel (ls_label ls) pos ;;
      h <- rv_isSet (ls_hasChild ls) pos ;;
      it <- mp_append ls it label pos nodeID ;;
      if negb h then mp_finish ls it label pos else mp_down_loop childPos todo' ls it pos
  end.
(** louds_sparse.go:391-426 MoveToLeftMostKey, 428-463 MoveToRightMostKey *)
Definition mp_move (childPos : nat -> res nat) (ls : loudsSparse) (it : mpIter) : res mpIter :=
  it <- (match b_len (mp_key it) with
         | O => pos <- childPos (mp_startNode it) ;;
                 label <- getLabel (ls_label ls) pos ;;
                 mp_append ls it label pos (mp_startNode it)
         | _ => Ok it
         end) ;;
  pos <- idx (mp_pos it) (mp_level it) ;;
  label <- getLabel (ls_label ls) pos ;;
  h <- rv_isSet (ls_hasChild ls) pos ;;
  if negb h then mp_finish ls it label pos else mp_down_loop childPos (ls_sparseLevels ls - mp_level it) ls it pos.
Definition mp_moveLeft (ls : loudsSparse) := mp_move (ls_firstLabelPos ls) ls.
Definition mp_moveRight (ls : loudsSparse) := mp_move (ls_lastLabelPos ls) ls.

(** louds_sparse.go:487-490 setAt *)
Definition mp_setAt (ls : loudsSparse) (it : mpIter) (pos : nat) : res mpIter :=
  pl <- idx (mp_plen it) (mp_level it) ;;
  n <- sub_chk pl 1 ;;
  k <- b_trunc (mp_key it) n ;;
  label <- getLabel (ls_label ls) pos ;;
  ps <- upd (mp_pos it) (mp_level it) pos ;;
  Ok (mp_setKey (mp_setPos it ps (mp_node it) (mp_plen it)) (b_append k [label])).

(** louds_sparse.go:230-247 Next *)
Fixpoint mp_next_climb (level : nat) (ls : loudsSparse) (it : mpIter) : res mpIter :=
  pos0 <- idx (mp_pos it) level ;;
  _ <- idx (mp_node it) level ;;
  let pos := pos0 + 1 in
  up <- (if Nat.leb (bv_numBits (sv_bv (ls_louds ls))) pos then Ok true else bv_isSet (sv_bv (ls_louds ls)) pos) ;;
  if up : bool then
    match level with
    | O => Ok (mp_setKey (mp_setValid (mp_setLevel it 0) false) (b_clear (mp_key it)))
    | S l => mp_next_climb l ls it
    end
  else it <- mp_setAt ls (mp_setLevel it level) pos ;; mp_moveLeft ls it.
Definition mp_next (ls : loudsSparse) (it : mpIter) : res mpIter :=
  mp_next_climb (mp_level it) ls (mp_setAtTerm it false).

(** louds_sparse.go:258-269: the loop of Prev. *)
Fixpoint mp_prev_climb (level : nat) (ls : loudsSparse) (it : mpIter) : res mpIter :=
  pos <- idx (mp_pos it) level ;;
  _ <- idx (mp_node it) level ;;
  b <- bv_isSet (sv_bv (ls_louds ls)) pos ;;
  if b : bool then
    match level with
    | O => Ok (mp_setKey (mp_setValid (mp_setLevel it 0) false) (b_clear (mp_key it)))
    | S l => mp_prev_climb l ls it
    end
  else
    q <- sub_chk pos 1 ;;
    it <- mp_setAt ls (mp_setLevel it level) q ;; mp_moveRight ls it.
(** louds_sparse.go:249-270 Prev *)
Definition mp_prev (ls : loudsSparse) (it : mpIter) : res mpIter :=
  let it := mp_setAtTerm it false in
  pos <- idx (mp_pos it) (mp_level it) ;;
  _ <- idx (mp_node it) (mp_level it) ;;
  if Nat.eqb pos 0 then Ok (mp_setValid it false) else mp_prev_climb (mp_level it) ls it.

(** louds_sparse.go:496-504 moveToLeftInNextSubTrie *)
Definition mp_leftInNext (ls : loudsSparse) (it : mpIter) (pos nodeID nodeSize : nat) (label : byte) : res mpIter :=
  ' (pos, ok) <- label_search_gt (ls_label ls) label pos nodeSize ;;
  l <- getLabel (ls_label ls) pos ;;
  it <- mp_append ls it l pos nodeID ;;
  if ok : bool then mp_moveLeft ls it else mp_next ls it.

(** louds_sparse.go:506-514 compareSuffixGreaterThan *)
Definition mp_compareSuffix (ls : loudsSparse) (it : mpIter) (key : bytes) (pos level : nat) : res (mpIter * bool) :=
  sp <- ls_suffixPos ls pos ;;
  cmp <- suffix_compare (ls_suffixes ls) key sp level ;;
  if (cmp <? 0)%Z then it <- mp_next ls it ;; Ok (it, false)
  else Ok (mp_setValid it true, (cmp =? couldBePositive)%Z).

(** louds_sparse.go:272-338 Seek *)
Fixpoint mp_seek_loop (todo : nat) (ls : loudsSparse) (it : mpIter) (key : bytes) (nodeID pos depth : nat) : res (mpIter * bool) :=
  match todo with
  | O =>
      (* louds_sparse.go:324-337 *)
      l <- getLabel (ls_label ls) pos ;;
      t <- (if Nat.eqb l labelTerminator then
              h <- rv_isSet (ls_hasChild ls) pos ;;
              if negb h then e <- ls_isEndOfNode ls pos ;; Ok (negb e) else Ok false
            else Ok false) ;;
      if t : bool then
        it <- mp_append ls it labelTerminator pos nodeID ;;
        Ok (mp_setValid (mp_setAtTerm it true) true, false)
      else if Nat.leb (length key) depth then
        it <- mp_moveLeft ls it ;; Ok (it, false)
      else Ok (mp_setValid it true, true)
  | S todo' =>
      pid <- ls_prefixID ls nodeID ;;
      prefix <- getPrefix (ls_prefix ls) pid ;;
      cmp <- prefix_cmp prefix key depth ;;
      if (cmp <? 0)%Z then
        if Nat.eqb (mp_level it) 0 then Ok (mp_setValid it false, false) else
        it <- mp_next ls (mp_setLevel it (mp_level it - 1)) ;; Ok (it, false)
      else
        let depth := depth + length prefix in
        if Nat.leb (length key) depth || (0 <? cmp)%Z then
          l <- getLabel (ls_label ls) pos ;;
          it <- mp_append ls it l pos nodeID ;;
          it <- mp_moveLeft ls it ;; Ok (it, false)
        else
          kb <- idx key depth ;;
          size <- ls_nodeSize ls pos ;;
          ' (pos, ok) <- label_search (ls_label ls) kb pos size ;;
          if negb ok then
            it <- mp_leftInNext ls it pos nodeID size kb ;; Ok (it, false)
          else
          it <- mp_append ls it kb pos nodeID ;;
          h <- rv_isSet (ls_hasChild ls) pos ;;
          if negb h then mp_compareSuffix ls it key pos (depth + 1) else
          nodeID <- ls_childNodeID ls pos ;;
          pos <- ls_firstLabelPos ls nodeID ;;
          mp_seek_loop todo' ls (mp_setLevel it (S (mp_level it))) key nodeID pos (depth + 1)
  end.
Definition mp_seek (ls : loudsSparse) (it : mpIter) (key : bytes) : res (mpIter * bool) :=
  pos <- ls_firstLabelPos ls (mp_startNode it) ;;
  mp_seek_loop (ls_sparseLevels ls) ls (mp_setLevel it 0) key (mp_startNode it) pos (mp_startDepth it).

(** louds_sparse.go:340-345 Key: a slice of the buffer; 347-350 Value *)
Definition mp_Key (it : mpIter) : res buf :=
  if mp_atTerm it then n <- sub_chk (b_len (mp_key it)) 1 ;; b_trunc (mp_key it) n else Ok (mp_key it).
Definition mp_Value (ls : loudsSparse) (it : mpIter) : res bytes :=
  pos <- idx (mp_pos it) (mp_level it) ;;
  vp <- ls_suffixPos ls pos ;;
  valueVector_get (ls_values ls) vp.
(** louds_sparse.go:465-473 SetToFirstInRoot, SetToLastInRoot *)
Definition mp_setToFirst (ls : loudsSparse) (it : mpIter) : res mpIter :=
  ps <- upd (mp_pos it) 0 0 ;;
  l <- getLabel (ls_label ls) 0 ;;
  Ok (mp_setKey (mp_setPos it ps (mp_node it) (mp_plen it)) (b_append (b_clear (mp_key it)) [l])).
Definition mp_setToLast (ls : loudsSparse) (it : mpIter) : res mpIter :=
  p <- ls_lastLabelPos ls 0 ;;
  ps <- upd (mp_pos it) 0 p ;;
  l <- getLabel (ls_label ls) p ;;
  Ok (mp_setKey (mp_setPos it ps (mp_node it) (mp_plen it)) (b_append (b_clear (mp_key it)) [l])).


(* ------------------------------------------------------------------ *)
(** ** Iterator *)

(** surf.go:86-91 *)
Record miter := mkMI { mi_dense : mdIter; mi_sparse : mpIter; mi_buf : buf }.

(** surf.go:93-99 NewIterator *)
Definition newMIterator (s : surf) : miter := mkMI (md_init (s_ld s)) (mp_init (s_ls s)) nil_buf.
(** surf.go:101-104 Valid *)
Definition mi_valid (it : miter) : bool :=
  md_valid (mi_dense it) && (md_isComplete (mi_dense it) || mp_valid (mi_sparse it)).
(** surf.go:203-207 Reset *)
Definition mi_reset (it : miter) : miter := mkMI (md_reset (mi_dense it)) (mp_reset (mi_sparse it)) (mi_buf it).
(** surf.go:209-212 passToSparse *)
Definition mi_pass (it : miter) : miter :=
  mkMI (mi_dense it) (mp_setStart (mi_sparse it) (md_sendNode (mi_dense it)) (md_sendDepth (mi_dense it))) (mi_buf it).
Definition mi_onSparse (it : miter) (f : mpIter -> res mpIter) : res miter :=
  p <- f (mi_sparse it) ;; Ok (mkMI (mi_dense it) p (mi_buf it)).

(** surf.go:214-230 incrDenseIter (its result is unused) *)
Definition mi_incrDense (s : surf) (it : miter) : res miter :=
  if negb (md_valid (mi_dense it)) then Ok it else
  d <- md_next (s_ld s) (mi_dense it) ;;
  let it := mkMI d (mi_sparse it) (mi_buf it) in
  if negb (md_valid d) then Ok it else
  if md_left d then Ok it else
  mi_onSparse (mi_pass it) (mp_moveLeft (s_ls s)).
(** surf.go:106-112 Next with 232-238 incrSparseIter *)
Definition mi_next (s : surf) (it : miter) : res miter :=
  if mp_valid (mi_sparse it) then
    p <- mp_next (s_ls s) (mi_sparse it) ;;
    let it := mkMI (mi_dense it) p (mi_buf it) in
    if mp_valid p then Ok it else mi_incrDense s it
  else mi_incrDense s it.
(** surf.go:240-256 decrDenseIter *)
Definition mi_decrDense (s : surf) (it : miter) : res miter :=
  if negb (md_valid (mi_dense it)) then Ok it else
  d <- md_prev (s_ld s) (mi_dense it) ;;
  let it := mkMI d (mi_sparse it) (mi_buf it) in
  if negb (md_valid d) then Ok it else
  if md_right d then Ok it else
  mi_onSparse (mi_pass it) (mp_moveRight (s_ls s)).
(** surf.go:114-120 Prev with 258-264 decrSparseIter *)
Definition mi_prev (s : surf) (it : miter) : res miter :=
  if mp_valid (mi_sparse it) then
    p <- mp_prev (s_ls s) (mi_sparse it) ;;
    let it := mkMI (mi_dense it) p (mi_buf it) in
    if mp_valid p then Ok it else mi_decrDense s it
  else mi_decrDense s it.

(** surf.go:122-150 Seek *)
Definition mi_seek (s : surf) (it : miter) (key : bytes) : res (miter * bool) :=
  let it := mi_reset it in
  if Nat.eqb (ls_height (s_ls s)) 0 && Nat.eqb (ld_height (s_ld s)) 0 then Ok (it, false) else
  ' (d, fp) <- md_seek (s_ld s) (mi_dense it) key ;;
  let it := mkMI d (mi_sparse it) (mi_buf it) in
  if negb (md_valid d) || md_isComplete d then Ok (it, fp) else
  if negb (md_search d) then
    let it := mi_pass it in
    ' (p, fp) <- mp_seek (s_ls s) (mi_sparse it) key ;;
    let it := mkMI d p (mi_buf it) in
    it <- (if negb (mp_valid p) then mi_incrDense s it else Ok it) ;;
    Ok (it, fp)
  else if negb (md_left d) then
    it <- mi_onSparse (mi_pass it) (mp_moveLeft (s_ls s)) ;; Ok (it, fp)
  else Panic.

(** surf.go:152-167 SeekToFirst *)
Definition mi_seekToFirst (s : surf) (it : miter) : res miter :=
  let it := mi_reset it in
  if Nat.ltb 0 (ld_height (s_ld s)) then
    d <- md_setToFirst (s_ld s) (mi_dense it) ;;
    d <- md_moveLeft (s_ld s) d ;;
    let it := mkMI d (mi_sparse it) (mi_buf it) in
    if md_left d then Ok it else mi_onSparse (mi_pass it) (mp_moveLeft (s_ls s))
  else if Nat.ltb 0 (ls_height (s_ls s)) then
    mi_onSparse it (fun p => p <- mp_setToFirst (s_ls s) p ;; mp_moveLeft (s_ls s) p)
  else Ok it.
(** surf.go:169-184 SeekToLast *)
Definition mi_seekToLast (s : surf) (it : miter) : res miter :=
  let it := mi_reset it in
  if Nat.ltb 0 (ld_height (s_ld s)) then
    d <- md_setToLast (s_ld s) (mi_dense it) ;;
    d <- md_moveRight (s_ld s) d ;;
    let it := mkMI d (mi_sparse it) (mi_buf it) in
    if md_right d then Ok it else mi_onSparse (mi_pass it) (mp_moveRight (s_ls s))
  else if Nat.ltb 0 (ls_height (s_ls s)) then
    mi_onSparse it (fun p => p <- mp_setToLast (s_ls s) p ;; mp_moveRight (s_ls s) p)
  else Ok it.


(** A key handed to the caller: a slice of an array of the dense iterator's buffer or of the
    Iterator's own buffer. *)
Inductive owner := OfDense | OfIterator.
Record keyref := mkRef { k_owner : owner; k_arr : nat; k_len : nat }.
Definition k_buf (it : miter) (k : keyref) : buf := match k_owner k with OfDense => md_key (mi_dense it) | OfIterator => mi_buf it end.
(** The bytes the caller sees in it now. *)
Definition key_bytes (it : miter) (k : keyref) : bytes := firstn (k_len k) (nth (k_arr k) (b_mem (k_buf it k)) []).

(** surf.go:186-193 Key. The result of the second append is not stored in the iterator. *)
Definition mi_key (it : miter) : res (miter * keyref) :=
  dk <- md_Key (mi_dense it) ;;
  if md_isComplete (mi_dense it) then Ok (it, mkRef OfDense (b_cur dk) (b_len dk)) else
  pk <- mp_Key (mi_sparse it) ;;
  let b := b_append (b_clear (mi_buf it)) (b_view dk) in
  let b2 := b_append b (b_view pk) in
  Ok (mkMI (mi_dense it) (mi_sparse it) (mkBuf (b_mem b2) (b_cur b) (b_len b)), mkRef OfIterator (b_cur b2) (b_len b2)).
(** surf.go:195-201 Value *)
Definition mi_value (s : surf) (it : miter) : res bytes :=
  if md_isComplete (mi_dense it) then md_Value (s_ld s) (mi_dense it) else mp_Value (s_ls s) (mi_sparse it).

(** What the caller can do with a key: store a byte, or append (in place if the capacity allows). *)
Definition b_store (b : buf) (c : nat) (i : nat) (l : bytes) : buf :=
  mkBuf (set_arr (b_mem b) c (splice (nth c (b_mem b) []) i l)) (b_cur b) (b_len b).
Definition k_update (it : miter) (k : keyref) (f : buf -> buf) : miter :=
  match k_owner k with
  | OfDense =>
      let d := mi_dense it in mkMI (md_setKey d (f (md_key d))) (mi_sparse it) (mi_buf it)
  | OfIterator => mkMI (mi_dense it) (mi_sparse it) (f (mi_buf it))
  end.
(** key[i] = x *)
Definition key_set (it : miter) (k : keyref) (i : nat) (x : byte) : res miter :=
  if Nat.ltb i (k_len k) then Ok (k_update it k (fun b => b_store b (k_arr k) i [x])) else Panic.
(** _ = append(key, l...) *)
Definition key_append (it : miter) (k : keyref) (l : bytes) : miter :=
  if Nat.leb (k_len k + length l) (length (nth (k_arr k) (b_mem (k_buf it k)) []))
  then k_update it k (fun b => b_store b (k_arr k) (k_len k) l) else it.

End Grow.
