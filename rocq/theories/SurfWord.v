(** * SurfWord: Build and Get with the uint32 arithmetic of the code.

    SurfModel counts in unbounded [nat].  Here every quantity that the code keeps in a uint32
    is reduced modulo 2^32 wherever an addition, subtraction, multiplication or conversion can
    carry it over; quantities of type int and uint64 are as in SurfModel.  Where the code only
    divides, takes remainders or counts up to the length of a slice of words (at most 2^26
    words, as the number of bits is a uint32), nothing can wrap and the functions of VecModel
    are used as they are. *)
From Verif Require Import Base BitsModel VecModel SurfModel.

(** Go [uint32(x)], and [x + y], [x - y], [x * y] on uint32. *)
Definition w32 (x : nat) : nat := N.to_nat (N.of_nat x mod two32)%N.
Definition add32 (x y : nat) : nat := w32 (x + y).
Definition mul32 (x y : nat) : nat := w32 (x * y).
Definition minus32 (x y : nat) : nat := N.to_nat (sub32 (N.of_nat x) (N.of_nat y)).

(* ------------------------------------------------------------------ *)
(** ** Vectors (bits_vec.go) *)

(** bits_vec.go:29-68 bitVector.Init: numBits is a sum of uint32. *)
Definition bitVector_init32 (levels : list (list N)) (nums : list nat) : res bitVector :=
  let numBits := w32 (nsum nums) in
  '(dst, _, _) <- init_levels levels 0 nums (repeat 0%N (numWords numBits), 0, 0) ;;
  Ok (mkBV numBits dst).

(** bits_vec.go:94-107 *)
Fixpoint next_loop32 (todo : nat) (v : bitVector) (wordOff distance : nat) : res nat :=
  match todo with
  | O =>
      Ok (if Nat.eqb wordOff (numWords (bv_numBits v) - 1) && negb (Nat.eqb (bv_numBits v mod 64) 0)
          then minus32 distance (64 - bv_numBits v mod 64) else distance)
  | S todo' =>
      let wordOff := S wordOff in
      w <- idx (bv_bits v) wordOff ;;
      if (0 <? w)%N then Ok (add32 distance (ctz64 w))
      else next_loop32 todo' v wordOff (add32 distance 64)
  end.
(** bits_vec.go:74-108 DistanceToNextSetBit *)
Definition distanceToNextSetBit32 (v : bitVector) (pos : nat) : res nat :=
  let distance := 1 in
  let wordOff := add32 pos 1 / 64 in
  let bitsOff := add32 pos 1 mod 64 in
  if Nat.leb (w32 (length (bv_bits v))) wordOff then Ok 0 else
  w <- idx (bv_bits v) wordOff ;;
  let testBits := shr64 w (N.of_nat bitsOff) in
  if (0 <? testBits)%N then Ok (add32 distance (ctz64 testBits)) else
  let nw := numWords (bv_numBits v) in
  if Nat.eqb wordOff (nw - 1) then Ok (minus32 (bv_numBits v) pos) else
  next_loop32 (nw - 1 - wordOff) v wordOff (add32 distance (64 - bitsOff)).

(** Go [copy(dst[pos:], src)]: as much as there is room for. *)
Definition copy_at (dst : bytes) (pos : nat) (src : bytes) : res bytes :=
  if Nat.leb pos (length dst)
  then Ok (firstn pos dst ++ firstn (length dst - pos) src ++ skipn (pos + length src) dst) else Panic.
(** bits_vec.go:148-152 and 447-451: the levels are copied one after the other; [pos] is a uint32. *)
Fixpoint copy_levels32 (levels : list bytes) (pos : nat) (dst : bytes) : res bytes :=
  match levels with
  | [] => Ok dst
  | l :: rest => dst <- copy_at dst pos l ;; copy_levels32 rest (add32 pos (w32 (length l))) dst
  end.
(** bits_vec.go:140-153 Init: the size is an int. *)
Definition valueVector_init32 (valuesPerLevel : list bytes) (valueSize : nat) : res valueVector :=
  bs <- copy_levels32 valuesPerLevel 0 (repeat 0 (nsum (map (@length nat) valuesPerLevel))) ;;
  Ok (mkVV bs valueSize).
(** bits_vec.go:155-158 Get *)
Definition valueVector_get32 (v : valueVector) (pos : nat) : res bytes :=
  let off := mul32 pos (vv_valueSize v) in
  slice (vv_bytes v) off (add32 off (vv_valueSize v)).

(** bits_vec.go:212-235 Init: positions are int, stored as uint32. *)
Definition selectVector_init32 (levels : list (list N)) (nums : list nat) : res selectVector :=
  bv <- bitVector_init32 levels nums ;;
  '(ones, lut) <- sel_words (bv_bits bv) 0 0 64 [0] ;;
  Ok (mkSV bv (w32 ones) (map w32 lut)).
(** bits_vec.go:244-275 Select *)
Definition select32 (v : selectVector) (rank : nat) : res nat :=
  let lutIdx := rank / 64 in
  let rankLeft := rank mod 64 in
  if Nat.eqb lutIdx 0 && Nat.eqb rankLeft 0 then Panic else
  let rankLeft := if Nat.eqb lutIdx 0 then rankLeft - 1 else rankLeft in
  pos <- idx (sv_lut v) lutIdx ;;
  if Nat.eqb rankLeft 0 then Ok pos else
  let wordOff := pos / 64 in
  let bitsOff := pos mod 64 in
  let '(wordOff, bitsOff) :=
    if Nat.eqb bitsOff 63 then (S wordOff, 0) else (wordOff, S bitsOff) in
  w <- idx (bv_bits (sv_bv v)) wordOff ;;
  let w := shl64 (shr64 w (N.of_nat bitsOff)) (N.of_nat bitsOff) in
  '(wordOff, w, rankLeft) <- sel_loop (length (bv_bits (sv_bv v))) (bv_bits (sv_bv v)) wordOff w (pop w) rankLeft ;;
  q <- select64 w rankLeft ;;
  Ok (add32 (mul32 wordOff 64) q).

(** bits_vec.go:343-348 *)
Fixpoint rank_blocks32 (todo i : nat) (bs : list N) (wordPerBlk blockSize total : nat) : res (list nat) :=
  match todo with
  | O => Ok [total]
  | S todo' =>
      p <- popcountBlock bs (i * wordPerBlk) blockSize ;;
      rest <- rank_blocks32 todo' (S i) bs wordPerBlk blockSize (add32 total p) ;;
      Ok (total :: rest)
  end.
(** bits_vec.go:336-350 init *)
Definition rankVector_init32 (blockSize : nat) (levels : list (list N)) (nums : list nat) : res rankVector :=
  bv <- bitVector_init32 levels nums ;;
  let wordPerBlk := blockSize / 64 in
  let nblks := bv_numBits bv / blockSize + 1 in
  lut <- rank_blocks32 (nblks - 1) 0 (bv_bits bv) wordPerBlk blockSize 0 ;;
  Ok (mkRV bv blockSize lut).
(** bits_vec.go:412-418, 428-434 Rank *)
Definition rank_at32 (blockSize : nat) (v : rankVector) (pos : nat) : res nat :=
  let wordPerBlk := blockSize / 64 in
  let blockOff := pos / blockSize in
  let bitsOff := pos mod blockSize in
  r <- idx (rv_lut v) blockOff ;;
  p <- popcountBlock (bv_bits (rv_bv v)) (blockOff * wordPerBlk) (bitsOff + 1) ;;
  Ok (add32 r p).

(** bits_vec.go:440-452 Init: one byte more than there are labels. *)
Definition labelVector_init32 (labelsPerLevel : list bytes) (startLevel endLevel : nat) : res bytes :=
  let ls := firstn (endLevel - startLevel) (skipn startLevel labelsPerLevel) in
  copy_levels32 ls 0 (repeat 0 (1 + nsum (map (@length nat) ls))).
(** bits_vec.go:458-473 Search *)
Definition label_search32 (labels : bytes) (k : byte) (start size : nat) : res (nat * bool) :=
  '(start, size) <- (if Nat.ltb 1 size then
      l <- idx labels start ;;
      Ok (if Nat.eqb l labelTerminator then (add32 start 1, size - 1) else (start, size))
    else Ok (start, size)) ;;
  let e := Nat.min (add32 start size) (w32 (length labels)) in
  s <- slice labels start e ;;
  match indexByte s k with
  | None => Ok (start, false)
  | Some r => Ok (add32 start (w32 r), true)
  end.

(** bits_vec.go:527-536 *)
Fixpoint prefix_offsets32 (ps : list bytes) (offset : nat) : bytes :=
  match ps with
  | [] => []
  | p :: rest => put32 offset ++ prefix_offsets32 rest (add32 offset (w32 (length p)))
  end.
(** bits_vec.go:524-537 Init *)
Definition prefixVec_init32 (hasPrefixBits : list (list N)) (numNodes : list nat)
    (prefixes : list (list bytes)) : res prefixVec :=
  has <- rankVector_init32 rankSparseBlockSize hasPrefixBits numNodes ;;
  Ok (mkPV has (prefix_offsets32 (concat prefixes) 0) (concat (concat prefixes))).
(** bits_vec.go:554-566 GetPrefix *)
Definition getPrefix32 (v : prefixVec) (nodeID : nat) : res bytes :=
  b <- rv_isSet (pv_has v) nodeID ;;
  if negb b then Ok [] else
  r <- rank_at32 rankSparseBlockSize (pv_has v) nodeID ;;
  let prefixID := minus32 r 1 in
  so <- slice_from (pv_offsets v) (mul32 prefixID 4) ;;
  start <- get32 so ;;
  e <- (if Nat.ltb (mul32 (add32 prefixID 1) 4) (length (pv_offsets v))
        then eo <- slice_from (pv_offsets v) (mul32 (add32 prefixID 1) 4) ;; get32 eo
        else Ok (w32 (length (pv_data v)))) ;;
  slice (pv_data v) start e.
(** bits_vec.go:539-552 CheckPrefix: the first comparison is on int. *)
Definition checkPrefix32 (v : prefixVec) (key : bytes) (depth nodeID : nat) : res (nat * bool) :=
  prefix <- getPrefix32 v nodeID ;;
  if Nat.eqb (length prefix) 0 then Ok (0, true) else
  if Nat.ltb (length key) (depth + length prefix) then Ok (0, false) else
  k <- slice key depth (add32 depth (w32 (length prefix))) ;;
  if beqb k prefix then Ok (w32 (length prefix), true) else Ok (0, false).

(** bits_vec.go:629-635 Init *)
Definition suffixVector_init32 (t : SuffixType) (hashLen realLen : nat)
    (levels : list (list N)) (nums : list nat) : res suffixVector :=
  bv <- bitVector_init32 levels nums ;; Ok (mkXV bv t hashLen realLen).
(** bits_vec.go:750-752 suffixLen *)
Definition xv_suffixLen32 (v : suffixVector) : nat := add32 (xv_hashLen v) (xv_realLen v).

Section Hash.
Variable fingerprint64 : bytes -> N.

(** bits_vec.go:774-799 constructRealSuffix *)
Definition constructRealSuffix32 (key : bytes) (level realLen : nat) : res N :=
  let klen := w32 (length key) in
  if Nat.ltb klen level || Nat.ltb (mul32 (klen - level) 8) realLen then Ok 0%N else
  let nbytes := realLen / 8 in
  suffix <- (if Nat.ltb 0 nbytes
             then b <- idx key level ;; real_suffix_loop (nbytes - 1) 1 key (N.of_nat b)
             else Ok 0%N) ;;
  let off := realLen mod 8 in
  if Nat.ltb 0 off then
    b <- idx key (add32 level nbytes) ;;
    Ok (w64 (shl64 suffix (N.of_nat off) + shr64 (N.of_nat b) (N.of_nat (8 - off))))
  else Ok suffix.
(** bits_vec.go:801-805 constructMixedSuffix *)
Definition constructMixedSuffix32 (key : bytes) (level realLen hashLen : nat) : res N :=
  rs <- constructRealSuffix32 key level realLen ;;
  Ok (N.lor (shlv (constructHashSuffix fingerprint64 key hashLen) (N.of_nat realLen)) rs).
(** bits_vec.go:754-765 constructSuffix *)
Definition constructSuffix32 (key : bytes) (level : nat) (t : SuffixType) (realLen hashLen : nat) : res N :=
  match t with
  | HashSuffix => Ok (constructHashSuffix fingerprint64 key hashLen)
  | RealSuffix => constructRealSuffix32 key level realLen
  | MixedSuffix => constructMixedSuffix32 key level realLen hashLen
  | NoneSuffix => Ok 0%N
  end.
(** bits_vec.go:736-748 read *)
Definition suffix_read32 (v : suffixVector) (i : nat) : res N :=
  let suffixLen := xv_suffixLen32 v in
  let bitPos := mul32 i suffixLen in
  let wordOff := bitPos / 64 in
  let bitsOff := bitPos mod 64 in
  w <- idx (bv_bits (xv_bv v)) wordOff ;;
  let result := N.land (shr64 w (N.of_nat bitsOff)) (sub64 (shlv 1 (N.of_nat suffixLen)) 1) in
  if Nat.ltb 64 (add32 bitsOff suffixLen) then
    let leftLen := 64 - bitsOff in
    let rightLen := minus32 suffixLen leftLen in
    w2 <- idx (bv_bits (xv_bv v)) (S wordOff) ;;
    Ok (N.lor result (shlv (N.land w2 (sub64 (shlv 1 (N.of_nat rightLen)) 1)) (N.of_nat leftLen)))
  else Ok result.
(** bits_vec.go:637-656 CheckEquality *)
Definition checkEquality32 (v : suffixVector) (i : nat) (key : bytes) (level : nat) : res bool :=
  if suffixType_eqb (xv_type v) NoneSuffix then Ok true else
  if Nat.leb (bv_numBits (xv_bv v)) (mul32 i (xv_suffixLen32 v)) then Ok false else
  suffix <- suffix_read32 v i ;;
  let real := suffixType_eqb (xv_type v) RealSuffix in
  if real && (suffix =? 0)%N then Ok true else
  if real && (Nat.ltb (w32 (length key)) level || Nat.ltb (mul32 (w32 (length key) - level) 8) (xv_realLen v))
  then Ok false else
  expected <- constructSuffix32 key level (xv_type v) (xv_realLen v) (xv_hashLen v) ;;
  Ok (suffix =? expected)%N.

(* ------------------------------------------------------------------ *)
(** ** Builder (builder.go) *)

(** builder.go:205-207 numItems *)
Definition numItems32 (lv : level) : nat := w32 (length (lv_labels lv)).
(** builder.go:229-234 moveToNextItemSlot *)
Definition moveToNextItemSlot32 (lv : level) : level :=
  if Nat.eqb (numItems32 lv mod 64) 0
  then set_bits lv (lv_hasChild lv ++ [0%N]) (lv_louds lv ++ [0%N]) else lv.
Definition c_suffixLen32 (c : config) : nat := add32 (c_hashLen c) (c_realLen c).   (* builder.go:197-199 *)
(** builder.go:236-255 insertSuffix *)
Definition insertSuffix32 (c : config) (key : bytes) (depth : nat) (lv : level) : res level :=
  suffix <- constructSuffix32 key (add32 (w32 depth) 1) (c_type c) (c_realLen c) (c_hashLen c) ;;
  let suffixLen := c_suffixLen32 c in
  let pos := mul32 (lv_suffixCount lv) suffixLen in
  let ss := if Nat.eqb pos (w32 (length (lv_suffixes lv) * 64)) then lv_suffixes lv ++ [0%N] else lv_suffixes lv in
  let wordID := pos / 64 in
  let offset := pos mod 64 in
  let remain := 64 - offset in
  ss <- or_at ss wordID (shl64 suffix (N.of_nat offset)) ;;
  let ss := if Nat.ltb remain suffixLen then ss ++ [shrv suffix (N.of_nat remain)] else ss in
  Ok (set_suffixes lv ss (add32 (lv_suffixCount lv) 1)).
(** builder.go:257-260 insertValue; valueCounts, a uint32 that is never read, is left as it is. *)
Definition insertValue32 (c : config) (value : bytes) (lv : level) : res level :=
  v <- slice value 0 (c_valueSize c) ;;
  Ok (set_values lv (lv_values lv ++ v) (lv_valueCount lv + 1)).
(** builder.go:115-122 *)
Definition addTerminator32 (c : config) (e : kv) (depth : nat) (lv : level) : res level :=
  let lv := set_lastTerm (set_labels lv (lv_labels lv ++ [labelTerminator])) true in
  lv <- insertSuffix32 c (fst e) depth lv ;;
  lv <- insertValue32 c (snd e) lv ;;
  Ok (moveToNextItemSlot32 lv).
(** builder.go:135-139 *)
Definition addLeaf32 (c : config) (e : kv) (b : byte) (depth : nat) (lv : level) : res level :=
  let lv := moveToNextItemSlot32 (set_labels lv (lv_labels lv ++ [b])) in
  lv <- insertSuffix32 c (fst e) depth lv ;;
  insertValue32 c (snd e) lv.
(** builder.go:135-136, 141 *)
Definition addInner32 (b : byte) (lv : level) : res level :=
  let lv := moveToNextItemSlot32 (set_labels lv (lv_labels lv ++ [b])) in
  h <- setBit (lv_hasChild lv) (minus32 (numItems32 lv) 1) ;;
  Ok (set_bits lv h (lv_louds lv)).
(** builder.go:148-158 *)
Definition finishNode32 (prefix : bytes) (nodeStart : nat) (lv : level) : res level :=
  lv <- (match prefix with
         | [] => Ok lv
         | _ => h <- setBit (lv_hasPrefix lv) (lv_nodeCount lv) ;;
                Ok (insertPrefix prefix (set_prefix lv h (lv_prefixes lv)))
         end) ;;
  l <- setBit (lv_louds lv) nodeStart ;;
  let lv := set_bits lv (lv_hasChild lv) l in
  let n := add32 (lv_nodeCount lv) 1 in
  Ok (set_nodeCount lv n (if Nat.eqb (n mod 64) 0 then lv_hasPrefix lv ++ [0%N] else lv_hasPrefix lv)).

(** builder.go:124-146: groups, depths and levels are int. *)
Fixpoint group_loop32 (rec : list kv -> nat -> nat -> nat -> list level -> res (list level))
    (c : config) (kvs : list kv) (depth i : nat)
    (todo groupStart groupEnd : nat) (ls : list level) : res (option (list level)) :=
  match todo with
  | O => Ok (Some ls)
  | S todo' =>
      same <- (if Nat.ltb groupEnd (length kvs) then
                 es <- idx kvs groupStart ;; ee <- idx kvs groupEnd ;;
                 bs <- idx (fst es) depth ;; be <- idx (fst ee) depth ;; Ok (Nat.eqb bs be)
               else Ok false) ;;
      if same : bool then group_loop32 rec c kvs depth i todo' groupStart (S groupEnd) ls
      else if Nat.eqb groupEnd (length kvs) && Nat.eqb groupStart 0 && negb (Nat.eqb (groupEnd - groupStart) 1)
      then Ok None
      else
        es <- idx kvs groupStart ;;
        b <- idx (fst es) depth ;;
        ls <- (if Nat.eqb (groupEnd - groupStart) 1
               then upd_level ls i (addLeaf32 c es b depth)
               else
                 ls <- upd_level ls i (addInner32 b) ;;
                 sub <- slice kvs groupStart groupEnd ;;
                 rec sub (depth + 1) (depth + 1) (i + 1) ls) ;;
        group_loop32 rec c kvs depth i todo' groupEnd (S groupEnd) ls
  end.
(** builder.go:110-159 buildNodes *)
Fixpoint buildNodes32 (fuel : nat) (c : config) (kvs : list kv) (prefixDepth depth i : nat)
    (ls : list level) : res (list level) :=
  match fuel with
  | O => Hang
  | S fuel' =>
      let ls := ensureLevel ls i in
      lv <- idx ls i ;;
      let nodeStart := numItems32 lv in
      e0 <- idx kvs 0 ;;
      ' (ls, groupStart) <-
        (if Nat.leb (length (fst e0)) depth
         then ls <- upd_level ls i (addTerminator32 c e0 depth) ;; Ok (ls, 1)
         else Ok (ls, 0)) ;;
      r <- group_loop32 (buildNodes32 fuel' c) c kvs depth i (length kvs + 1 - groupStart) groupStart groupStart ls ;;
      match r with
      | None => buildNodes32 fuel' c kvs prefixDepth (depth + 1) i ls
      | Some ls =>
          prefix <- (if Nat.ltb prefixDepth depth then slice (fst e0) prefixDepth depth else Ok []) ;;
          upd_level ls i (finishNode32 prefix nodeStart)
      end
  end.

(** builder.go:317-323 setLabelAndHasChildVec *)
Definition setLabelAndHasChild32 (lv : level) (nodeID pos : nat) (lab hc : list N) : res (list N * list N) :=
  l <- idx (lv_labels lv) pos ;;
  lab <- setBit lab (add32 (mul32 nodeID 256) l) ;;
  h <- readBit (lv_hasChild lv) pos ;;
  hc <- (if h : bool then setBit hc (add32 (mul32 nodeID 256) l) else Ok hc) ;;
  Ok (lab, hc).
(** builder.go:176-187; [pos] stays below numItems, and nodeID with it. *)
Fixpoint dense_loop32 (todo pos nodeID : nat) (lv : level) (lab hc ip : list N) : res (list N * list N * list N) :=
  match todo with
  | O => Ok (lab, hc, ip)
  | S todo' =>
      st <- readBit (lv_louds lv) pos ;;
      let nodeID := if st : bool then S nodeID else nodeID in
      t <- (if st : bool then isTerminator lv pos else Ok false) ;;
      if t : bool then
        ip <- setBit ip nodeID ;; dense_loop32 todo' (S pos) nodeID lv lab hc ip
      else
        ' (lab, hc) <- setLabelAndHasChild32 lv nodeID pos lab hc ;;
        dense_loop32 todo' (S pos) nodeID lv lab hc ip
  end.
(** builder.go:165-187 *)
Definition buildDense_level32 (lv : level) (lab hc ip : list N) : res (list N * list N * list N) :=
  if Nat.eqb (numItems32 lv) 0 then Ok (lab, hc, ip) else
  t <- isTerminator lv 0 ;;
  ' (lab, hc, ip) <-
    (if t : bool then ip <- setBit ip 0 ;; Ok (lab, hc, ip)
     else ' (lab, hc) <- setLabelAndHasChild32 lv 0 0 lab hc ;; Ok (lab, hc, ip)) ;;
  dense_loop32 (numItems32 lv - 1) 1 0 lv lab hc ip.
(** builder.go:161-189 buildDense; builder.go:325-335: the length of the vectors is a uint32. *)
Fixpoint buildDense_loop32 (todo l : nat) (b : builder) : res builder :=
  match todo with
  | O => Ok b
  | S todo' =>
      lv <- idx (b_levels b) l ;;
      let ldl := b_ldLabels b ++ [repeat 0%N (mul32 (lv_nodeCount lv) (256 / 64))] in
      let ldh := b_ldHasChild b ++ [repeat 0%N (mul32 (lv_nodeCount lv) (256 / 64))] in
      let ldp := b_ldIsPrefix b ++ [repeat 0%N (prefixWords (lv_nodeCount lv))] in
      lab <- idx ldl l ;; hc <- idx ldh l ;; ip <- idx ldp l ;;
      ' (lab, hc, ip) <- buildDense_level32 lv lab hc ip ;;
      ldl <- upd ldl l lab ;; ldh <- upd ldh l hc ;; ldp <- upd ldp l ip ;;
      buildDense_loop32 todo' (S l) (mkBuilder (b_sparseStart b) (b_valueSize b) (b_totalCount b) (b_levels b)
        ldl ldh ldp (b_type b) (b_hashLen b) (b_realLen b))
  end.

(* ------------------------------------------------------------------ *)
(** ** loudsDense *)

(** louds_dense.go:25-52 Init *)
Definition ld_init32 (b : builder) : res loudsDense :=
  let h := b_sparseStart b in
  ldl <- slice (b_ldLabels b) 0 h ;;
  ldh <- slice (b_ldHasChild b) 0 h ;;
  ldp <- slice (b_ldIsPrefix b) 0 h ;;
  lvs <- slice (b_levels b) 0 h ;;
  let nums := map (fun ws => w32 (length ws * 64)) ldl in
  label <- rankVector_init32 rankDenseBlockSize ldl nums ;;
  hasChild <- rankVector_init32 rankDenseBlockSize ldh nums ;;
  isPrefix <- rankVector_init32 rankDenseBlockSize ldp (map lv_nodeCount (b_levels b)) ;;
  suffixes <- (if suffixType_eqb (b_type b) NoneSuffix then Ok zeroSuffixes else
     suffixVector_init32 (b_type b) (b_hashLen b) (b_realLen b) (map lv_suffixes lvs)
       (map (fun lv => mul32 (lv_suffixCount lv) (add32 (b_hashLen b) (b_realLen b))) lvs)) ;;
  values <- valueVector_init32 (map lv_values lvs) (b_valueSize b) ;;
  prefix <- prefixVec_init32 (map lv_hasPrefix lvs) (map lv_nodeCount lvs) (map lv_prefixes lvs) ;;
  Ok (mkLD label hasChild isPrefix suffixes values prefix h).

(** louds_dense.go:148-158 suffixPos *)
Definition ld_suffixPos32 (ld : loudsDense) (pos : nat) (isPrefix : bool) : res nat :=
  let nodeID := pos / 256 in
  rl <- rank_at32 rankDenseBlockSize (ld_label ld) pos ;;
  rh <- rank_at32 rankDenseBlockSize (ld_hasChild ld) pos ;;
  rp <- rank_at32 rankDenseBlockSize (ld_isPrefix ld) nodeID ;;
  let sp := minus32 (add32 (minus32 rl rh) rp) 1 in
  if isPrefix then
    l <- rv_isSet (ld_label ld) pos ;;
    if l : bool then
      h <- rv_isSet (ld_hasChild ld) pos ;;
      Ok (if negb h then minus32 sp 1 else sp)
    else Ok sp
  else Ok sp.

(** louds_dense.go:66-71, 80-84 and louds_sparse.go:82-86, 94-98 *)
Definition check_value32 (sv : suffixVector) (vv : valueVector) (valPos : nat) (key : bytes) (level : nat) : res (option bytes) :=
  ok <- checkEquality32 sv valPos key level ;;
  if ok : bool then v <- valueVector_get32 vv valPos ;; Ok (Some v) else Ok None.

(** louds_dense.go:54-92 Get *)
Fixpoint ld_get_loop32 (todo : nat) (ld : loudsDense) (key : bytes) (nodeID depth : nat) : res dres :=
  match todo with
  | O => Ok (DCont nodeID depth)
  | S todo' =>
      ' (prefixLen, ok) <- checkPrefix32 (ld_prefix ld) key depth nodeID ;;
      if negb ok then Ok (DAnswer None) else
      let depth := add32 depth prefixLen in
      let pos := mul32 nodeID 256 in
      if Nat.leb (w32 (length key)) depth then
        p <- rv_isSet (ld_isPrefix ld) nodeID ;;
        if p : bool then
          valPos <- ld_suffixPos32 ld pos true ;;
          v <- check_value32 (ld_suffixes ld) (ld_values ld) valPos key (add32 depth 1) ;;
          Ok (DAnswer v)
        else Ok (DAnswer None)
      else
        kb <- idx key depth ;;
        let pos := add32 pos kb in
        l <- rv_isSet (ld_label ld) pos ;;
        if negb l then Ok (DAnswer None) else
        h <- rv_isSet (ld_hasChild ld) pos ;;
        if negb h then
          valPos <- ld_suffixPos32 ld pos false ;;
          v <- check_value32 (ld_suffixes ld) (ld_values ld) valPos key (add32 depth 1) ;;
          Ok (DAnswer v)
        else
          nodeID <- rank_at32 rankDenseBlockSize (ld_hasChild ld) pos ;;
          ld_get_loop32 todo' ld key nodeID (add32 depth 1)
  end.

(* ------------------------------------------------------------------ *)
(** ** loudsSparse *)

(** louds_sparse.go:22-58 Init *)
Definition ls_init32 (b : builder) : res loudsSparse :=
  let lvs := b_levels b in
  let height := w32 (length lvs) in
  let start := b_sparseStart b in
  dl <- slice lvs 0 start ;;
  let denseNodeCount := w32 (nsum (map lv_nodeCount dl)) in
  denseChildCount <- (if Nat.eqb start 0 then Ok 0 else lv <- idx lvs start ;; Ok (minus32 (add32 denseNodeCount (lv_nodeCount lv)) 1)) ;;
  sl <- slice_from lvs start ;;
  label <- labelVector_init32 (map lv_labels lvs) start height ;;
  let nums := map numItems32 sl in
  hasChild <- rankVector_init32 rankSparseBlockSize (map lv_hasChild sl) nums ;;
  louds <- selectVector_init32 (map lv_louds sl) nums ;;
  suffixes <- (if suffixType_eqb (b_type b) NoneSuffix then Ok zeroSuffixes else
     suffixVector_init32 (b_type b) (b_hashLen b) (b_realLen b) (map lv_suffixes sl)
       (map (fun lv => mul32 (lv_suffixCount lv) (add32 (b_hashLen b) (b_realLen b))) sl)) ;;
  values <- valueVector_init32 (map lv_values sl) (b_valueSize b) ;;
  prefix <- prefixVec_init32 (map lv_hasPrefix sl) (map lv_nodeCount sl) (map lv_prefixes sl) ;;
  Ok (mkLS height start denseNodeCount denseChildCount label hasChild louds suffixes values prefix).

(** louds_sparse.go:173-175 suffixPos *)
Definition ls_suffixPos32 (ls : loudsSparse) (pos : nat) : res nat :=
  r <- rank_at32 rankSparseBlockSize (ls_hasChild ls) pos ;; Ok (minus32 pos r).
(** louds_sparse.go:177-179 firstLabelPos *)
Definition ls_firstLabelPos32 (ls : loudsSparse) (nodeID : nat) : res nat :=
  select32 (ls_louds ls) (minus32 (add32 nodeID 1) (ls_denseNodeCount ls)).
(** louds_sparse.go:196-198 childNodeID *)
Definition ls_childNodeID32 (ls : loudsSparse) (pos : nat) : res nat :=
  r <- rank_at32 rankSparseBlockSize (ls_hasChild ls) pos ;; Ok (add32 r (ls_denseChildCount ls)).

(** louds_sparse.go:93-101 *)
Definition ls_get_end32 (ls : loudsSparse) (key : bytes) (pos depth : nat) : res (option bytes) :=
  l <- getLabel (ls_label ls) pos ;;
  h <- (if Nat.eqb l labelTerminator then rv_isSet (ls_hasChild ls) pos else Ok true) ;;
  if h : bool then Ok None else
  valPos <- ls_suffixPos32 ls pos ;;
  check_value32 (ls_suffixes ls) (ls_values ls) valPos key (add32 depth 1).
(** louds_sparse.go:60-102 Get; louds_sparse.go:184-186 prefixID is the argument of checkPrefix. *)
Fixpoint ls_get_loop32 (fuel : nat) (ls : loudsSparse) (key : bytes) (nodeID pos depth : nat) : res (option bytes) :=
  if Nat.leb (w32 (length key)) depth then ls_get_end32 ls key pos depth else
  match fuel with
  | O => Hang
  | S fuel' =>
      ' (prefixLen, ok) <- checkPrefix32 (ls_prefix ls) key depth (minus32 nodeID (ls_denseNodeCount ls)) ;;
      if negb ok then Ok None else
      let depth := add32 depth prefixLen in
      if Nat.leb (w32 (length key)) depth then ls_get_end32 ls key pos depth else
      kb <- idx key depth ;;
      size <- distanceToNextSetBit32 (sv_bv (ls_louds ls)) pos ;;
      ' (pos, ok) <- label_search32 (ls_label ls) kb pos size ;;
      if negb ok then Ok None else
      h <- rv_isSet (ls_hasChild ls) pos ;;
      if negb h then
        valPos <- ls_suffixPos32 ls pos ;;
        check_value32 (ls_suffixes ls) (ls_values ls) valPos key (add32 depth 1)
      else
        nodeID <- ls_childNodeID32 ls pos ;;
        pos <- ls_firstLabelPos32 ls nodeID ;;
        ls_get_loop32 fuel' ls key nodeID pos (add32 depth 1)
  end.

(* ------------------------------------------------------------------ *)
(** ** SuRF *)

(** surf.go:15-21 Get *)
Definition surf_get32 (s : surf) (key : bytes) : res (option bytes) :=
  r <- ld_get_loop32 (ld_height (s_ld s)) (s_ld s) key 0 0 ;;
  match r with
  | DAnswer v => Ok v
  | DCont nodeID depth =>
      pos <- ls_firstLabelPos32 (s_ls s) nodeID ;;
      ls_get_loop32 (length key) (s_ls s) key nodeID pos depth
  end.

(** builder.go:91-108 Build with a new builder. *)
Definition surf_build32 (fuel : nat) (b : builder) (keys vals : list bytes) (hint : Z) : res surf :=
  kvs <- zip_kvs keys vals ;;
  lvs <- buildNodes32 fuel (b_config b) kvs 0 0 0 (b_levels b) ;;
  let start := w32 (determineCutoffLevel lvs (length keys) (add32 (b_hashLen b) (b_realLen b)) hint) in
  b <- buildDense_loop32 start 0 (mkBuilder start (b_valueSize b) (length keys) lvs (b_ldLabels b) (b_ldHasChild b) (b_ldIsPrefix b)
         (b_type b) (b_hashLen b) (b_realLen b)) ;;
  _ <- prefixVec_init32 (map lv_hasPrefix lvs) (map lv_nodeCount lvs) (map lv_prefixes lvs) ;;
  ld <- ld_init32 b ;;
  ls <- ls_init32 b ;;
  Ok (mkSurf ld ls).
End Hash.
