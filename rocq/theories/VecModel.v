(** * Model of surf/bits_vec.go: bit, rank, select, label, value, prefix and suffix vectors.

    uint32 positions and counts are unbounded [nat] (no vector holds 2^32 bits);
    little-endian uint32 encodings truncate as in the code. *)
From Verif Require Import Base BitsModel.

(** Go [x << n], [x >> n] with a variable uint32 shift count: 0 from 64 on. *)
Definition shlv (x n : N) : N := if (n <? 64)%N then shl64 x n else 0%N.
Definition shrv (x n : N) : N := if (n <? 64)%N then shr64 x n else 0%N.
(** uint32 subtraction (wraps). *)
Definition two32 : N := (2 ^ 32)%N.
Definition sub32 (a b : N) : N := ((a + two32 - b mod two32) mod two32)%N.

(** encoding/binary.LittleEndian PutUint32 / Uint32. *)
Definition put32 (n : nat) : bytes :=
  [n mod 256; n / 256 mod 256; n / 256 / 256 mod 256; n / 256 / 256 / 256 mod 256].
Definition get32 (b : bytes) : res nat :=
  match b with
  | a0 :: a1 :: a2 :: a3 :: _ => Ok (a0 + 256 * (a1 + 256 * (a2 + 256 * a3)))
  | _ => Panic
  end.

(** Go [l[i:]]. *)
Definition slice_from {A} (l : list A) (i : nat) : res (list A) :=
  if Nat.leb i (length l) then Ok (skipn i l) else Panic.

(** Go [bits[i] |= x]. *)
Definition or_at (bs : list N) (i : nat) (x : N) : res (list N) :=
  w <- idx bs i ;; upd bs i (N.lor w x).

(* ------------------------------------------------------------------ *)
(** ** bitVector (bits_vec.go:12-133) *)

Record bitVector := mkBV { bv_numBits : nat; bv_bits : list N }.

(** bits_vec.go:17-23 numWords *)
Definition numWords (nbits : nat) : nat :=
  nbits / 64 + (if Nat.eqb (nbits mod 64) 0 then 0 else 1).

(** bits_vec.go:25-27 bitsSize *)
Definition bitsSize (v : bitVector) : nat := numWords (bv_numBits v) * 8.

(** bits_vec.go:43-50: the loop over the complete words of one level.
    State: destination words, wordID; [word] counts up. *)
Fixpoint init_complete (todo word : nat) (src : list N) (bitShift : nat)
    (dst : list N) (wordID : nat) : res (list N * nat) :=
  match todo with
  | O => Ok (dst, wordID)
  | S todo' =>
      w <- idx src word ;;
      dst <- or_at dst wordID (shl64 w (N.of_nat bitShift)) ;;
      let wordID := S wordID in
      dst <- (if Nat.ltb 0 bitShift
              then or_at dst wordID (shr64 w (N.of_nat (64 - bitShift)))
              else Ok dst) ;;
      init_complete todo' (S word) src bitShift dst wordID
  end.

(** bits_vec.go:38-66: one level. State: destination words, wordID, bitShift. *)
Definition init_level (src : list N) (n : nat) (st : list N * nat * nat)
    : res (list N * nat * nat) :=
  let '(dst, wordID, bitShift) := st in
  if Nat.eqb n 0 then Ok st else
  let nCompleteWords := n / 64 in
  '(dst, wordID) <- init_complete nCompleteWords 0 src bitShift dst wordID ;;
  let remain := n mod 64 in
  if Nat.ltb 0 remain then
    lastWord <- idx src nCompleteWords ;;
    dst <- or_at dst wordID (shl64 lastWord (N.of_nat bitShift)) ;;
    if Nat.leb (bitShift + remain) 64 then
      let bitShift := (bitShift + remain) mod 64 in
      Ok (dst, if Nat.eqb bitShift 0 then S wordID else wordID, bitShift)
    else
      let wordID := S wordID in
      dst <- or_at dst wordID (shr64 lastWord (N.of_nat (64 - bitShift))) ;;
      Ok (dst, wordID, bitShift + remain - 64)
  else Ok (dst, wordID, bitShift).

(** bits_vec.go:36-67: the loop over levels. *)
Fixpoint init_levels (levels : list (list N)) (level : nat) (nums : list nat)
    (st : list N * nat * nat) : res (list N * nat * nat) :=
  match levels with
  | [] => Ok st
  | src :: rest =>
      n <- idx nums level ;;
      st <- init_level src n st ;;
      init_levels rest (S level) nums st
  end.

Definition nsum (l : list nat) : nat := fold_right Nat.add 0 l.

(** bits_vec.go:29-68 bitVector.Init on a zero bitVector. *)
Definition bitVector_init (levels : list (list N)) (nums : list nat) : res bitVector :=
  let numBits := nsum nums in
  '(dst, _, _) <- init_levels levels 0 nums (repeat 0%N (numWords numBits), 0, 0) ;;
  Ok (mkBV numBits dst).

(** bits_vec.go:70-72 IsSet *)
Definition bv_isSet (v : bitVector) (pos : nat) : res bool := readBit (bv_bits v) pos.

(** bits_vec.go:94-101: the word loop of DistanceToNextSetBit, with what follows it;
    [todo] = numWords-1-wordOff iterations remain. *)
Fixpoint next_loop (todo : nat) (v : bitVector) (wordOff distance : nat) : res nat :=
  match todo with
  | O =>
      (* bits_vec.go:103-107 *)
      Ok (if Nat.eqb wordOff (numWords (bv_numBits v) - 1) && negb (Nat.eqb (bv_numBits v mod 64) 0)
          then distance - (64 - bv_numBits v mod 64) else distance)
  | S todo' =>
      let wordOff := S wordOff in
      w <- idx (bv_bits v) wordOff ;;
      if (0 <? w)%N then Ok (distance + ctz64 w)
      else next_loop todo' v wordOff (distance + 64)
  end.

(** bits_vec.go:74-108 DistanceToNextSetBit *)
Definition distanceToNextSetBit (v : bitVector) (pos : nat) : res nat :=
  let distance := 1 in
  let wordOff := (pos + 1) / 64 in
  let bitsOff := (pos + 1) mod 64 in
  if Nat.leb (length (bv_bits v)) wordOff then Ok 0 else
  w <- idx (bv_bits v) wordOff ;;
  let testBits := shr64 w (N.of_nat bitsOff) in
  if (0 <? testBits)%N then Ok (distance + ctz64 testBits) else
  let nw := numWords (bv_numBits v) in
  if Nat.eqb wordOff (nw - 1) then Ok (bv_numBits v - pos) else
  next_loop (nw - 1 - wordOff) v wordOff (distance + (64 - bitsOff)).

(** bits_vec.go:124-132: the word loop of DistanceToPrevSetBit. *)
Fixpoint prev_loop (wordOff : nat) (v : bitVector) (distance : nat) : res nat :=
  match wordOff with
  | O => Ok distance
  | S wordOff' =>
      w <- idx (bv_bits v) wordOff' ;;
      if (0 <? w)%N then Ok (distance + clz64 w)
      else prev_loop wordOff' v (distance + 64)
  end.

(** bits_vec.go:110-133 DistanceToPrevSetBit *)
Definition distanceToPrevSetBit (v : bitVector) (pos : nat) : res nat :=
  if Nat.eqb pos 0 then Ok 1 else
  let distance := 1 in
  let wordOff := (pos - 1) / 64 in
  let bitsOff := (pos - 1) mod 64 in
  w <- idx (bv_bits v) wordOff ;;
  let testBits := shl64 w (N.of_nat (64 - 1 - bitsOff)) in
  if (0 <? testBits)%N then Ok (distance + clz64 testBits) else
  prev_loop wordOff v (distance + (bitsOff + 1)).

(* ------------------------------------------------------------------ *)
(** ** valueVector (bits_vec.go:135-158) *)

Record valueVector := mkVV { vv_bytes : bytes; vv_valueSize : nat }.

(** bits_vec.go:140-153 Init: the copies concatenate the levels. *)
Definition valueVector_init (valuesPerLevel : list bytes) (valueSize : nat) : valueVector :=
  mkVV (concat valuesPerLevel) valueSize.

(** bits_vec.go:155-158 Get *)
Definition valueVector_get (v : valueVector) (pos : nat) : res bytes :=
  let off := pos * vv_valueSize v in
  slice (vv_bytes v) off (off + vv_valueSize v).

(* ------------------------------------------------------------------ *)
(** ** selectVector (bits_vec.go:204-275) *)

Record selectVector := mkSV { sv_bv : bitVector; sv_numOnes : nat; sv_lut : list nat }.

(** The portable select64; the amd64 version agrees on every in-range argument
    (theorem C32). *)
Definition select64 (w : N) (k : nat) : res nat := select64_other w (N.of_nat k).

(** bits_vec.go:219-224: sampling inside one word; fuel bounds the iterations. *)
Fixpoint sel_sample (fuel : nat) (i : nat) (w : N) (ones onesUpto sampled : nat) (lut : list nat)
    : res (nat * list nat) :=
  if Nat.leb sampled (onesUpto + ones) then
    match fuel with
    | O => Hang
    | S fuel' =>
        q <- select64 w (sampled - onesUpto) ;;
        sel_sample fuel' i w ones onesUpto (sampled + 64) (lut ++ [i * 64 + q])
    end
  else Ok (sampled, lut).

(** bits_vec.go:214-226: the loop over words. *)
Fixpoint sel_words (ws : list N) (i onesUpto sampled : nat) (lut : list nat) : res (nat * list nat) :=
  match ws with
  | [] => Ok (onesUpto, lut)
  | w :: rest =>
      let ones := pop w in
      '(sampled, lut) <- sel_sample (S ones) i w ones onesUpto sampled lut ;;
      sel_words rest (S i) (onesUpto + ones) sampled lut
  end.

(** bits_vec.go:212-235 Init *)
Definition selectVector_init (levels : list (list N)) (nums : list nat) : res selectVector :=
  bv <- bitVector_init levels nums ;;
  '(ones, lut) <- sel_words (bv_bits bv) 0 0 64 [0] ;;
  Ok (mkSV bv ones lut).

(** bits_vec.go:266-272: find the word; [rankLeft] ones are still to be counted. *)
Fixpoint sel_loop (fuel : nat) (bs : list N) (wordOff : nat) (w : N) (ones rankLeft : nat)
    : res (nat * N * nat) :=
  if Nat.ltb ones rankLeft then
    match fuel with
    | O => Hang
    | S fuel' =>
        let wordOff := S wordOff in
        w <- idx bs wordOff ;;
        sel_loop fuel' bs wordOff w (pop w) (rankLeft - ones)
    end
  else Ok (wordOff, w, rankLeft).

(** bits_vec.go:244-275 Select. [rank = 0] makes [rankLeft--] wrap to 2^32-1, after
    which the loop runs off the end of the bits: modelled as the panic it causes
    (no caller passes 0). *)
Definition select (v : selectVector) (rank : nat) : res nat :=
  let lutIdx := rank / 64 in
  let rankLeft := rank mod 64 in
  if Nat.eqb lutIdx 0 && Nat.eqb rankLeft 0 then Panic else
  let rankLeft := if Nat.eqb lutIdx 0 then rankLeft - 1 else rankLeft in
  pos <- idx (sv_lut v) lutIdx ;;
  if Nat.eqb rankLeft 0 then Ok pos else
  let wordOff := pos / 64 in
  let bitsOff := pos mod 64 in
  let '(wordOff, bitsOff) :=
    if Nat.eqb bitsOff 63 then (S wordOff, 0) else (wordOff, S bitsOff) in
  w <- idx (bv_bits (sv_bv v)) wordOff ;;
  let w := shl64 (shr64 w (N.of_nat bitsOff)) (N.of_nat bitsOff) in
  '(wordOff, w, rankLeft) <- sel_loop (length (bv_bits (sv_bv v))) (bv_bits (sv_bv v)) wordOff w (pop w) rankLeft ;;
  q <- select64 w rankLeft ;;
  Ok (wordOff * 64 + q).

(* ------------------------------------------------------------------ *)
(** ** rankVector (bits_vec.go:325-434) *)

Record rankVector := mkRV { rv_bv : bitVector; rv_blockSize : nat; rv_lut : list nat }.

(** bits_vec.go:343-348: ranks before each block; [todo] = nblks-1-i blocks remain. *)
Fixpoint rank_blocks (todo i : nat) (bs : list N) (wordPerBlk blockSize total : nat) : res (list nat) :=
  match todo with
  | O => Ok [total]
  | S todo' =>
      p <- popcountBlock bs (i * wordPerBlk) blockSize ;;
      rest <- rank_blocks todo' (S i) bs wordPerBlk blockSize (total + p) ;;
      Ok (total :: rest)
  end.

(** bits_vec.go:336-350 init *)
Definition rankVector_init (blockSize : nat) (levels : list (list N)) (nums : list nat) : res rankVector :=
  bv <- bitVector_init levels nums ;;
  let wordPerBlk := blockSize / 64 in
  let nblks := bv_numBits bv / blockSize + 1 in
  lut <- rank_blocks (nblks - 1) 0 (bv_bits bv) wordPerBlk blockSize 0 ;;
  Ok (mkRV bv blockSize lut).

(** bits_vec.go:325-328 *)
Definition rankDenseBlockSize := 64.
Definition rankSparseBlockSize := 512.

(** bits_vec.go:408-410, 424-426 Init of the two instances *)
Definition rankVectorDense_init := rankVector_init rankDenseBlockSize.
Definition rankVectorSparse_init := rankVector_init rankSparseBlockSize.

(** bits_vec.go:412-418, 428-434 Rank *)
Definition rank_at (blockSize : nat) (v : rankVector) (pos : nat) : res nat :=
  let wordPerBlk := blockSize / 64 in
  let blockOff := pos / blockSize in
  let bitsOff := pos mod blockSize in
  r <- idx (rv_lut v) blockOff ;;
  p <- popcountBlock (bv_bits (rv_bv v)) (blockOff * wordPerBlk) (bitsOff + 1) ;;
  Ok (r + p).
Definition rankDense := rank_at rankDenseBlockSize.
Definition rankSparse := rank_at rankSparseBlockSize.

Definition rv_isSet (v : rankVector) (pos : nat) : res bool := bv_isSet (rv_bv v) pos.

(* ------------------------------------------------------------------ *)
(** ** labelVector (bits_vec.go:436-486) *)

Definition labelTerminator : byte := 255.   (* builder.go:30 *)

(** bits_vec.go:440-452 Init: concatenation of the levels plus one trailing zero. *)
Definition labelVector_init (labelsPerLevel : list bytes) (startLevel endLevel : nat) : bytes :=
  concat (firstn (endLevel - startLevel) (skipn startLevel labelsPerLevel)) ++ [0].

(** bits_vec.go:454-456 GetLabel *)
Definition getLabel (labels : bytes) (pos : nat) : res byte := idx labels pos.

(** bytes.IndexByte *)
Fixpoint indexByte (l : bytes) (k : byte) : option nat :=
  match l with
  | [] => None
  | x :: t => if Nat.eqb x k then Some 0 else
              match indexByte t k with Some i => Some (S i) | None => None end
  end.

(** bits_vec.go:459-462, 476-479: skip the terminator of a node with several labels. *)
Definition skip_terminator (labels : bytes) (start size : nat) : res (nat * nat) :=
  if Nat.ltb 1 size then
    l <- idx labels start ;;
    Ok (if Nat.eqb l labelTerminator then (S start, size - 1) else (start, size))
  else Ok (start, size).

(** bits_vec.go:458-473 Search *)
Definition label_search (labels : bytes) (k : byte) (start size : nat) : res (nat * bool) :=
  '(start, size) <- skip_terminator labels start size ;;
  let e := Nat.min (start + size) (length labels) in
  s <- slice labels start e ;;
  match indexByte s k with
  | None => Ok (start, false)
  | Some r => Ok (start + r, true)
  end.

(** sort.Search (Go standard library): smallest index in [i,j) where the monotone
    [f] holds, by bisection. *)
Fixpoint sort_search (fuel : nat) (f : nat -> res bool) (i j : nat) : res nat :=
  if Nat.ltb i j then
    match fuel with
    | O => Hang
    | S fuel' =>
        let h := (i + j) / 2 in
        b <- f h ;;
        if (b : bool) then sort_search fuel' f i h else sort_search fuel' f (S h) j
    end
  else Ok i.

(** bits_vec.go:475-486 SearchGreaterThan *)
Definition label_search_gt (labels : bytes) (label : byte) (pos size : nat) : res (nat * bool) :=
  '(pos, size) <- skip_terminator labels pos size ;;
  r <- sort_search size (fun i => l <- idx labels (pos + i) ;; Ok (Nat.ltb label l)) 0 size ;;
  if Nat.eqb r size then Ok (pos + r - 1, false) else Ok (pos + r, true).

(* ------------------------------------------------------------------ *)
(** ** prefixVec (bits_vec.go:518-566) *)

Record prefixVec := mkPV { pv_has : rankVector; pv_offsets : bytes; pv_data : bytes }.

(** bits_vec.go:527-536: offsets and data of all prefixes, in order. *)
Fixpoint prefix_offsets (ps : list bytes) (offset : nat) : bytes :=
  match ps with
  | [] => []
  | p :: rest => put32 offset ++ prefix_offsets rest (offset + length p)
  end.

(** bits_vec.go:524-537 Init *)
Definition prefixVec_init (hasPrefixBits : list (list N)) (numNodes : list nat)
    (prefixes : list (list bytes)) : res prefixVec :=
  has <- rankVectorSparse_init hasPrefixBits numNodes ;;
  Ok (mkPV has (prefix_offsets (concat prefixes) 0) (concat (concat prefixes))).

(** bits_vec.go:554-566 GetPrefix *)
Definition getPrefix (v : prefixVec) (nodeID : nat) : res bytes :=
  b <- rv_isSet (pv_has v) nodeID ;;
  if negb b then Ok [] else
  r <- rankSparse (pv_has v) nodeID ;;
  let prefixID := r - 1 in
  so <- slice_from (pv_offsets v) (prefixID * 4) ;;
  start <- get32 so ;;
  e <- (if Nat.ltb ((prefixID + 1) * 4) (length (pv_offsets v))
        then eo <- slice_from (pv_offsets v) ((prefixID + 1) * 4) ;; get32 eo
        else Ok (length (pv_data v))) ;;
  slice (pv_data v) start e.

(** bits_vec.go:539-552 CheckPrefix: prefix length and whether it matches. *)
Definition checkPrefix (v : prefixVec) (key : bytes) (depth nodeID : nat) : res (nat * bool) :=
  prefix <- getPrefix v nodeID ;;
  if Nat.eqb (length prefix) 0 then Ok (0, true) else
  if Nat.ltb (length key) (depth + length prefix) then Ok (0, false) else
  k <- slice key depth (depth + length prefix) ;;
  if beqb k prefix then Ok (length prefix, true) else Ok (0, false).

(* ------------------------------------------------------------------ *)
(** ** suffixVector (bits_vec.go:616-810) *)

Inductive SuffixType := NoneSuffix | HashSuffix | RealSuffix | MixedSuffix.
Definition suffixType_eqb (a b : SuffixType) : bool :=
  match a, b with
  | NoneSuffix, NoneSuffix | HashSuffix, HashSuffix
  | RealSuffix, RealSuffix | MixedSuffix, MixedSuffix => true
  | _, _ => false
  end.

Record suffixVector := mkXV {
  xv_bv : bitVector; xv_type : SuffixType; xv_hashLen : nat; xv_realLen : nat }.

(** bits_vec.go:629-635 Init *)
Definition suffixVector_init (t : SuffixType) (hashLen realLen : nat)
    (levels : list (list N)) (nums : list nat) : res suffixVector :=
  bv <- bitVector_init levels nums ;; Ok (mkXV bv t hashLen realLen).

(** bits_vec.go:750-752 suffixLen *)
Definition xv_suffixLen (v : suffixVector) : nat := xv_hashLen v + xv_realLen v.

(** go-farm Fingerprint64: an arbitrary function of the key. *)
Section Hash.
Variable fingerprint64 : bytes -> N.

(** bits_vec.go:767-772 constructHashSuffix (the shift counts are uint32) *)
Definition constructHashSuffix (key : bytes) (hashLen : nat) : N :=
  let fp := w64 (fingerprint64 key) in
  let fp := shlv fp (sub32 (sub32 64 (N.of_nat hashLen)) 7) in
  shrv fp (sub32 64 (N.of_nat hashLen)).

(** bits_vec.go:784-787: for i := 1; i < nbytes; the bytes are key[i], not key[level+i]. *)
Fixpoint real_suffix_loop (todo i : nat) (key : bytes) (suffix : N) : res N :=
  match todo with
  | O => Ok suffix
  | S todo' =>
      b <- idx key i ;;
      real_suffix_loop todo' (S i) key (w64 (shl64 suffix 8 + N.of_nat b))
  end.

(** bits_vec.go:774-799 constructRealSuffix *)
Definition constructRealSuffix (key : bytes) (level realLen : nat) : res N :=
  let klen := length key in
  if Nat.ltb klen level || Nat.ltb ((klen - level) * 8) realLen then Ok 0%N else
  let nbytes := realLen / 8 in
  suffix <- (if Nat.ltb 0 nbytes
             then b <- idx key level ;; real_suffix_loop (nbytes - 1) 1 key (N.of_nat b)
             else Ok 0%N) ;;
  let off := realLen mod 8 in
  if Nat.ltb 0 off then
    b <- idx key (level + nbytes) ;;
    Ok (w64 (shl64 suffix (N.of_nat off) + shr64 (N.of_nat b) (N.of_nat (8 - off))))
  else Ok suffix.

(** bits_vec.go:801-805 constructMixedSuffix *)
Definition constructMixedSuffix (key : bytes) (level realLen hashLen : nat) : res N :=
  rs <- constructRealSuffix key level realLen ;;
  Ok (N.lor (shlv (constructHashSuffix key hashLen) (N.of_nat realLen)) rs).

(** bits_vec.go:754-765 constructSuffix *)
Definition constructSuffix (key : bytes) (level : nat) (t : SuffixType) (realLen hashLen : nat) : res N :=
  match t with
  | HashSuffix => Ok (constructHashSuffix key hashLen)
  | RealSuffix => constructRealSuffix key level realLen
  | MixedSuffix => constructMixedSuffix key level realLen hashLen
  | NoneSuffix => Ok 0%N
  end.

(** bits_vec.go:736-748 read. When [bitsOff+suffixLen > 64], rightLen and leftLen
    are the parts in the next word and in this one. *)
Definition suffix_read (v : suffixVector) (i : nat) : res N :=
  let suffixLen := xv_suffixLen v in
  let bitPos := i * suffixLen in
  let wordOff := bitPos / 64 in
  let bitsOff := bitPos mod 64 in
  w <- idx (bv_bits (xv_bv v)) wordOff ;;
  let result := N.land (shr64 w (N.of_nat bitsOff)) (sub64 (shlv 1 (N.of_nat suffixLen)) 1) in
  if Nat.ltb 64 (bitsOff + suffixLen) then
    let leftLen := 64 - bitsOff in
    let rightLen := suffixLen - leftLen in
    w2 <- idx (bv_bits (xv_bv v)) (S wordOff) ;;
    Ok (N.lor result (shlv (N.land w2 (sub64 (shlv 1 (N.of_nat rightLen)) 1)) (N.of_nat leftLen)))
  else Ok result.

(** bits_vec.go:637-656 CheckEquality *)
Definition checkEquality (v : suffixVector) (i : nat) (key : bytes) (level : nat) : res bool :=
  if suffixType_eqb (xv_type v) NoneSuffix then Ok true else
  if Nat.leb (bv_numBits (xv_bv v)) (i * xv_suffixLen v) then Ok false else
  suffix <- suffix_read v i ;;
  let real := suffixType_eqb (xv_type v) RealSuffix in
  if real && (suffix =? 0)%N then Ok true else
  if real && (Nat.ltb (length key) level || Nat.ltb ((length key - level) * 8) (xv_realLen v))
  then Ok false else
  expected <- constructSuffix key level (xv_type v) (xv_realLen v) (xv_hashLen v) ;;
  Ok (suffix =? expected)%N.

(** bits_vec.go:807-810 extractRealSuffix *)
Definition extractRealSuffix (suffix : N) (len : nat) : N :=
  N.land suffix (sub64 (shlv 1 (N.of_nat len)) 1).

Definition couldBePositive : Z := 2%Z.   (* bits_vec.go:658 *)

(** bits_vec.go:660-680 Compare *)
Definition suffix_compare (v : suffixVector) (key : bytes) (i level : nat) : res Z :=
  if Nat.leb (bv_numBits (xv_bv v)) (i * xv_suffixLen v)
     || suffixType_eqb (xv_type v) NoneSuffix || suffixType_eqb (xv_type v) HashSuffix
  then Ok couldBePositive else
  suffix <- suffix_read v i ;;
  let suffix := if suffixType_eqb (xv_type v) MixedSuffix
                then extractRealSuffix suffix (xv_realLen v) else suffix in
  expected <- constructRealSuffix key level (xv_realLen v) ;;
  if (suffix =? 0)%N && (expected =? 0)%N then Ok couldBePositive
  else if (suffix =? 0)%N || (suffix <? expected)%N then Ok (-1)%Z
  else if (suffix =? expected)%N then Ok couldBePositive
  else Ok 1%Z.
End Hash.
