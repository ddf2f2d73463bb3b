(** * ArtNode: leaves and inner-node layouts of the adaptive radix tree.

    /repo/art/node.go and /repo/art/range.go.  A pointer to an inner node is an
    address in the heap of ArtModel.v; a pointer to a leaf is the leaf's memory
    itself, because a leaf is never written after [newLeaf] returns.
    The four Go structs node4/node16/node48/node256 share one record whose array
    fields have the length the concrete type gives them (0 when absent). *)
From Verif Require Import Base BitsModel VecModel.

(** node.go:10-19 (typeInvalid never occurs, typeLeaf is the leaf memory below) *)
Inductive ntype := Node4 | Node16 | Node48 | Node256 | Dummy.

Definition ntype_eqb (a b : ntype) : bool :=
  match a, b with
  | Node4, Node4 | Node16, Node16 | Node48, Node48 | Node256, Node256 | Dummy, Dummy => true
  | _, _ => false
  end.

(** node.go:23 *)
Definition maxPrefixLen : nat := 8.
(** node.go:25-29 *)
Definition node16MinSize : nat := 4.
Definition node48MinSize : nat := 13.
Definition node256MinSize : nat := 38.

(** node.go:146-148: a leaf is the byte slice allocated by [newLeaf]. *)
Definition leaf := bytes.

(** node.go:17: typeLeaf *)
Definition typeLeaf : byte := 5.

(** node.go:150-162 newLeaf.  [put32] is the little-endian uint32 store of the
    (truncated) length. *)
Definition newLeaf (key value : bytes) : leaf :=
  typeLeaf :: put32 (length key) ++ key ++ put32 (length value) ++ value.

(** node.go:168-178 key.  Reading past the allocation is undefined behaviour in Go;
    the model panics there. *)
Definition leaf_key (l : leaf) : res bytes :=
  h <- slice_from l 1 ;;
  kl <- get32 h ;;
  slice l 5 (5 + kl).

(** node.go:180-191 value *)
Definition leaf_value (l : leaf) : res bytes :=
  h <- slice_from l 1 ;;
  kl <- get32 h ;;
  h2 <- slice_from l (kl + 5) ;;
  vl <- get32 h2 ;;
  slice l (kl + 9) (kl + 9 + vl).

(** node.go:193-195 match *)
Definition leaf_match (l : leaf) (key : bytes) : res bool :=
  k <- leaf_key l ;; Ok (beqb k key).

(** A non-nil [*node]: an inner node's address or a leaf. *)
Inductive ptr := PNode (a : nat) | PLeaf (l : leaf).

(** node.go:32-49, 66-70, 82-86, 103-108, 131-134 (without the version word, which
    lives in the heap cell). *)
Record node := mkNode {
  n_type : ntype;
  n_num : nat;                    (* numChildren uint8 *)
  n_plen : nat;                   (* prefixLen *)
  n_pleaf : option leaf;          (* prefixLeaf *)
  n_prefix : bytes;               (* prefix [8]byte *)
  n_keys : bytes;                 (* keys, node4 and node16 *)
  n_children : list (option ptr); (* children *)
  n_index : list nat;             (* index [256]int8, node48 *)
  n_slots : N                     (* slots, node48 *)
}.

Definition set_num (n : node) x := mkNode (n_type n) x (n_plen n) (n_pleaf n) (n_prefix n) (n_keys n) (n_children n) (n_index n) (n_slots n).
Definition set_plen (n : node) x := mkNode (n_type n) (n_num n) x (n_pleaf n) (n_prefix n) (n_keys n) (n_children n) (n_index n) (n_slots n).
Definition set_pleaf (n : node) x := mkNode (n_type n) (n_num n) (n_plen n) x (n_prefix n) (n_keys n) (n_children n) (n_index n) (n_slots n).
Definition set_prefix (n : node) x := mkNode (n_type n) (n_num n) (n_plen n) (n_pleaf n) x (n_keys n) (n_children n) (n_index n) (n_slots n).
Definition set_keys (n : node) x := mkNode (n_type n) (n_num n) (n_plen n) (n_pleaf n) (n_prefix n) x (n_children n) (n_index n) (n_slots n).
Definition set_children (n : node) x := mkNode (n_type n) (n_num n) (n_plen n) (n_pleaf n) (n_prefix n) (n_keys n) x (n_index n) (n_slots n).
Definition set_index (n : node) x := mkNode (n_type n) (n_num n) (n_plen n) (n_pleaf n) (n_prefix n) (n_keys n) (n_children n) x (n_slots n).
Definition set_slots (n : node) x := mkNode (n_type n) (n_num n) (n_plen n) (n_pleaf n) (n_prefix n) (n_keys n) (n_children n) (n_index n) x.

Definition zeros (n : nat) : bytes := repeat 0 n.
Definition nils (n : nat) : list (option ptr) := repeat None n.

(** node.go:98-101 *)
Definition node48EmptySlots : N := 0xffff000000000000.
Definition node48GrowSlots : N := 0xffffffff00000000.

(** node.go:72-76, 88-92, 110-115, 136-140, art.go:29 *)
Definition newNode4 : node := mkNode Node4 0 0 None (zeros 8) (zeros 4) (nils 4) [] 0.
Definition newNode16 : node := mkNode Node16 0 0 None (zeros 8) (zeros 16) (nils 16) [] 0.
Definition newNode48 : node := mkNode Node48 0 0 None (zeros 8) [] (nils 48) (zeros 256) node48EmptySlots.
Definition newNode256 : node := mkNode Node256 0 0 None (zeros 8) [] (nils 256) [] 0.
Definition dummyNode : node := mkNode Dummy 0 0 None (zeros 8) [] [] [] 0.

(** uint8 [x++] and [x--] *)
Definition inc8 (x : nat) : nat := (x + 1) mod 256.
Definition dec8 (x : nat) : nat := (x + 255) mod 256.

(** Go [copy(dst[i:], src)] *)
Definition copy_at {A} (dst : list A) (i : nat) (src : list A) : res (list A) :=
  if Nat.leb i (length dst) then
    let m := Nat.min (length dst - i) (length src) in
    Ok (firstn i dst ++ firstn m src ++ skipn (i + m) dst)
  else Panic.

(** node.go:51-64 isFull *)
Definition isFull (n : node) : res bool :=
  match n_type n with
  | Node4 => Ok (Nat.eqb (n_num n) 4)
  | Node16 => Ok (Nat.eqb (n_num n) 16)
  | Node48 => Ok (Nat.eqb (n_num n) 48)
  | Node256 => Ok false
  | Dummy => Panic
  end.

(** Go [^x] on uint64 *)
Definition not64 (x : N) : N := N.lxor x 0xffffffffffffffff.

(** node.go:121-125 allocSlot.  [idx] is a Go int and the shift count
    [48 - uint(idx) - 1]: when all slots are taken [Len64] is 0, idx is 48 and the
    count wraps to a huge value, so nothing is shifted in. *)
Definition slot_bit (i : nat) : N :=
  if Nat.ltb i 48 then shl64 1 (N.of_nat (48 - i - 1)) else 0.
Definition allocSlot (n : node) : node * nat :=
  let i := 48 - len64 (not64 (n_slots n)) in
  (set_slots n (N.lor (n_slots n) (slot_bit i)), i).

(** node.go:127-129 freeSlot *)
Definition freeSlot (n : node) (i : nat) : node :=
  set_slots n (N.land (n_slots n) (not64 (slot_bit i))).

(** node.go:212-216 and 218-222 *)
Definition insertChild_small (n : node) (key : byte) (child : ptr) : res node :=
  ks <- upd (n_keys n) (n_num n) key ;;
  cs <- upd (n_children n) (n_num n) (Some child) ;;
  Ok (set_num (set_children (set_keys n ks) cs) (inc8 (n_num n))).

(** node.go:224-229 *)
Definition insertChild48 (n : node) (key : byte) (child : ptr) : res node :=
  let '(n1, pos) := allocSlot n in
  cs <- upd (n_children n1) pos (Some child) ;;
  ix <- upd (n_index n1) key (pos + 1) ;;
  Ok (set_num (set_index (set_children n1 cs) ix) (inc8 (n_num n1))).

(** node.go:231-234 *)
Definition insertChild256 (n : node) (key : byte) (child : ptr) : res node :=
  cs <- upd (n_children n) key (Some child) ;;
  Ok (set_num (set_children n cs) (inc8 (n_num n))).

(** node.go:197-210 insertChild *)
Definition insertChild (n : node) (key : byte) (child : ptr) : res node :=
  match n_type n with
  | Node4 | Node16 => insertChild_small n key child
  | Node48 => insertChild48 n key child
  | Node256 => insertChild256 n key child
  | Dummy => Panic
  end.

(** node.go:249-254 copyNode *)
Definition copyNode (newNode n : node) : node :=
  set_pleaf (set_prefix (set_plen (set_num newNode (n_num n)) (n_plen n)) (n_prefix n)) (n_pleaf n).

(** node.go:256-263, up to the store through nodeLoc (done by the caller) *)
Definition grow4 (n : node) (key : byte) (child : ptr) : res node :=
  ks <- copy_at (n_keys newNode16) 0 (n_keys n) ;;
  cs <- copy_at (n_children newNode16) 0 (n_children n) ;;
  insertChild (copyNode (set_children (set_keys newNode16 ks) cs) n) key child.

(** node.go:269-271: [for idx, k := range n.keys { index[k] = int8(idx) + 1 }] *)
Fixpoint fill_index (ix : list nat) (keys : bytes) (i : nat) : res (list nat) :=
  match keys with
  | [] => Ok ix
  | k :: rest => ix' <- upd ix k (i + 1) ;; fill_index ix' rest (i + 1)
  end.

(** node.go:265-275 *)
Definition grow16 (n : node) (key : byte) (child : ptr) : res node :=
  cs <- copy_at (n_children newNode48) 0 (n_children n) ;;
  ix <- fill_index (n_index newNode48) (n_keys n) 0 ;;
  insertChild (copyNode (set_index (set_slots (set_children newNode48 cs) node48GrowSlots) ix) n) key child.

(** node.go:279-283: [children[i] = n.children[index[i]-1]] where index[i] > 0,
    for the [f] values of [i] starting at [i]. *)
Fixpoint spread48 (n : node) (f i : nat) (cs : list (option ptr)) : res (list (option ptr)) :=
  match f with
  | O => Ok cs
  | S f' =>
      ix <- idx (n_index n) i ;;
      cs' <- (if Nat.ltb 0 ix then c <- idx (n_children n) (ix - 1) ;; upd cs i c else Ok cs) ;;
      spread48 n f' (i + 1) cs'
  end.

(** node.go:277-287 *)
Definition grow48 (n : node) (key : byte) (child : ptr) : res node :=
  cs <- spread48 n 256 0 (n_children newNode256) ;;
  insertChild (copyNode (set_children newNode256 cs) n) key child.

(** node.go:236-247 growAndInsert: the new node that is stored through nodeLoc *)
Definition growAndInsert (n : node) (key : byte) (child : ptr) : res node :=
  match n_type n with
  | Node4 => grow4 n key child
  | Node16 => grow16 n key child
  | Node48 => grow48 n key child
  | _ => Panic
  end.

(** node.go:336-362 removeChild ([i] is the position returned by findChild) *)
Definition removeChild (n : node) (i : nat) : res node :=
  match n_type n with
  | Node4 | Node16 =>
      kt <- slice_from (n_keys n) (i + 1) ;;
      ks <- copy_at (n_keys n) i kt ;;
      ct <- slice_from (n_children n) (i + 1) ;;
      cs <- copy_at (n_children n) i ct ;;
      let num := dec8 (n_num n) in
      cs' <- upd cs num None ;;
      Ok (set_num (set_children (set_keys n ks) cs') num)
  | Node48 =>
      ix <- idx (n_index n) i ;;
      if Nat.eqb ix 0 then Panic else
      let pos := ix - 1 in
      ixs <- upd (n_index n) i 0 ;;
      cs <- upd (n_children n) pos None ;;
      let n1 := freeSlot (set_children (set_index n ixs) cs) pos in
      Ok (set_num n1 (dec8 (n_num n1)))
  | Node256 =>
      cs <- upd (n_children n) i None ;;
      Ok (set_num (set_children n cs) (dec8 (n_num n)))
  | Dummy => Ok n
  end.

(** node.go:364-385 shouldShrink *)
Definition shouldShrink (n : node) (parentType : ntype) : res bool :=
  match n_type n with
  | Node4 =>
      if ntype_eqb parentType Dummy then Ok false else
      match n_pleaf n with
      | None => Ok (Nat.leb (n_num n) 2)
      | Some _ => Ok (Nat.leb (n_num n) 1)
      end
  | Node16 => Ok (Nat.leb (n_num n) node16MinSize)
  | Node48 => Ok (Nat.leb (n_num n) node48MinSize)
  | Node256 => Ok (Nat.ltb 0 (n_num n) && Nat.leb (n_num n) node256MinSize)
  | Dummy => Panic
  end.

(** node.go:493-498 shouldCompress *)
Definition shouldCompress (n : node) (parentType : ntype) : bool :=
  match n_type n with
  | Node4 => Nat.eqb (n_num n) 1 && negb (ntype_eqb parentType Dummy)
  | _ => false
  end.

(** node.go:449-455: copy the children other than [key] of a node16 into a node4 *)
Fixpoint shrink16_loop (n : node) (key : byte) (f i j : nat) (ks : bytes) (cs : list (option ptr))
    : res (bytes * list (option ptr)) :=
  match f with
  | O => Ok (ks, cs)
  | S f' =>
      k <- idx (n_keys n) i ;;
      if Nat.eqb k key then shrink16_loop n key f' (i + 1) j ks cs else
      c <- idx (n_children n) i ;;
      ks' <- upd ks j k ;;
      cs' <- upd cs j c ;;
      shrink16_loop n key f' (i + 1) (j + 1) ks' cs'
  end.

(** node.go:446-460 *)
Definition shrink16 (n : node) (key : byte) : res node :=
  ' (ks, cs) <- shrink16_loop n key (n_num n) 0 0 (n_keys newNode4) (n_children newNode4) ;;
  Ok (set_num (copyNode (set_children (set_keys newNode4 ks) cs) n) (node16MinSize - 1)).

(** node.go:465-471 *)
Fixpoint shrink48_loop (n : node) (key : byte) (f i j : nat) (ks : bytes) (cs : list (option ptr))
    : res (bytes * list (option ptr)) :=
  match f with
  | O => Ok (ks, cs)
  | S f' =>
      ix <- idx (n_index n) i ;;
      if negb (Nat.eqb i key) && negb (Nat.eqb ix 0) then
        c <- idx (n_children n) (ix - 1) ;;
        ks' <- upd ks j i ;;
        cs' <- upd cs j c ;;
        shrink48_loop n key f' (i + 1) (j + 1) ks' cs'
      else shrink48_loop n key f' (i + 1) j ks cs
  end.

(** node.go:462-476 *)
Definition shrink48 (n : node) (key : byte) : res node :=
  ' (ks, cs) <- shrink48_loop n key 256 0 0 (n_keys newNode16) (n_children newNode16) ;;
  Ok (set_num (copyNode (set_children (set_keys newNode16 ks) cs) n) (node48MinSize - 1)).

(** node.go:480-486 *)
Fixpoint shrink256_loop (n : node) (key : byte) (f i : nat) (nn : node) : res node :=
  match f with
  | O => Ok nn
  | S f' =>
      c <- idx (n_children n) i ;;
      match c with
      | Some p =>
          if negb (Nat.eqb i key) then
            let '(n1, pos) := allocSlot nn in
            ix <- upd (n_index n1) i (pos + 1) ;;
            cs <- upd (n_children n1) pos (Some p) ;;
            shrink256_loop n key f' (i + 1) (set_children (set_index n1 ix) cs)
          else shrink256_loop n key f' (i + 1) nn
      | None => shrink256_loop n key f' (i + 1) nn
      end
  end.

(** node.go:478-491 *)
Definition shrink256 (n : node) (key : byte) : res node :=
  nn <- shrink256_loop n key 256 0 newNode48 ;;
  Ok (set_num (copyNode nn n) (node256MinSize - 1)).

(** node.go:500-515 checkPrefix.  The two 8-byte words are equal iff the arrays are. *)
Definition checkPrefixN (n : node) (key : bytes) (depth : nat) : res (nat * bool) :=
  if Nat.eqb (n_plen n) 0 then Ok (depth, true) else
  let nextPos := depth + n_plen n in
  if Nat.ltb (length key) nextPos then Ok (0, false) else
  kp <- slice key depth nextPos ;;
  keyBuf <- copy_at (zeros 8) 0 kp ;;
  Ok (nextPos, beqb keyBuf (n_prefix n)).

(** node.go:521-525: position of [key] among the first numChildren keys *)
Fixpoint find4_loop (n : node) (key : byte) (f i : nat) : res (option nat) :=
  match f with
  | O => Ok None
  | S f' =>
      k <- idx (n_keys n) i ;;
      if Nat.eqb k key then Ok (Some i) else find4_loop n key f' (i + 1)
  end.

(** node.go:517-543 findChild: the child, the index of its slot in [children]
    (standing for the address [&children[i]]) and the position for removeChild. *)
Definition findChild (n : node) (key : byte) : res (option ptr * nat * nat) :=
  match n_type n with
  | Node4 =>
      o <- find4_loop n key (n_num n) 0 ;;
      match o with
      | Some i => c <- idx (n_children n) i ;; Ok (c, i, i)
      | None => Ok (None, 0, 0)
      end
  | Node16 =>
      match indexByte (n_keys n) key with
      | Some i =>
          if Nat.ltb i (n_num n) then c <- idx (n_children n) i ;; Ok (c, i, i)
          else Ok (None, 0, 0)
      | None => Ok (None, 0, 0)
      end
  | Node48 =>
      ix <- idx (n_index n) key ;;
      if Nat.ltb 0 ix then c <- idx (n_children n) (ix - 1) ;; Ok (c, ix - 1, key)
      else Ok (None, 0, 0)
  | Node256 => c <- idx (n_children n) key ;; Ok (c, key, key)
  | Dummy => Ok (None, 0, 0)
  end.

(** range.go:15-21 *)
Fixpoint first48_loop (n : node) (f i : nat) : res (option ptr) :=
  match f with
  | O => Panic
  | S f' =>
      ix <- idx (n_index n) i ;;
      if Nat.eqb ix 0 then first48_loop n f' (i + 1) else idx (n_children n) (ix - 1)
  end.

(** range.go:24-28 *)
Fixpoint first256_loop (n : node) (f i : nat) : res (option ptr) :=
  match f with
  | O => Panic
  | S f' =>
      c <- idx (n_children n) i ;;
      match c with Some _ => Ok c | None => first256_loop n f' (i + 1) end
  end.

(** range.go:5-31 firstChild *)
Definition firstChild (n : node) : res (option ptr) :=
  match n_type n with
  | Node4 | Node16 => idx (n_children n) 0
  | Node48 => first48_loop n 256 0
  | Node256 => first256_loop n 256 0
  | Dummy => Panic
  end.

(** node.go:311-315, 614-618, 637-642: first [i >= pos] below [l] where the strings
    differ, or [l]; [f] is the number of remaining iterations. *)
Fixpoint miss_loop (a b : bytes) (f pos : nat) : res nat :=
  match f with
  | O => Ok pos
  | S f' =>
      x <- idx a pos ;;
      y <- idx b pos ;;
      if Nat.eqb x y then miss_loop a b f' (pos + 1) else Ok pos
  end.

(** node.go:297-330 updateOrExpand: what is stored through nodeLoc, either a new leaf
    or a new node4 (allocated by the caller). *)
Definition updateOrExpand (l : leaf) (key value : bytes) (depth : nat) : res (leaf + node) :=
  m <- leaf_match l key ;;
  if m then Ok (inl (newLeaf key value)) else
  lkey <- leaf_key l ;;
  let prefixLen := Nat.min (length key) (length lkey) in
  missPos <- miss_loop lkey key (prefixLen - depth) depth ;;
  kp <- slice key depth missPos ;;
  px <- copy_at (zeros 8) 0 kp ;;
  let n0 := set_prefix (set_plen newNode4 (missPos - depth)) px in
  n1 <- (if Nat.eqb missPos (length lkey) then Ok (set_pleaf n0 (Some l))
         else c <- idx lkey missPos ;; insertChild n0 c (PLeaf l)) ;;
  n2 <- (if Nat.eqb missPos (length key) then Ok (set_pleaf n1 (Some (newLeaf key value)))
         else c <- idx key missPos ;; insertChild n1 c (PLeaf (newLeaf key value))) ;;
  Ok (inr n2).

(** node.go:332-334 *)
Definition updatePrefixLeaf (n : node) (key value : bytes) : node :=
  set_pleaf n (Some (newLeaf key value)).

(** node.go:545-573 insertSplitPrefix, for the node at address [a]: the rewritten node
    and the new parent to be stored through nodeLoc. *)
Definition insertSplitPrefix (a : nat) (n : node) (key fullKey value : bytes)
    (depth prefixLen : nat) : res (node * node) :=
  let d := depth + prefixLen in
  nn0 <- (if Nat.eqb (length key) d then Ok (set_pleaf newNode4 (Some (newLeaf key value)))
          else c <- idx key d ;; insertChild newNode4 c (PLeaf (newLeaf key value))) ;;
  let nn1 := set_plen nn0 prefixLen in
  px <- copy_at (n_prefix nn1) 0 (firstn (Nat.min maxPrefixLen prefixLen) (n_prefix n)) ;;
  let nn2 := set_prefix nn1 px in
  ' (pos, plen, tmp) <-
    (if Nat.leb (n_plen n) maxPrefixLen then
       pos <- idx (n_prefix n) prefixLen ;;
       let plen := n_plen n - (prefixLen + 1) in
       rest <- slice_from (n_prefix n) (prefixLen + 1) ;;
       tmp <- copy_at (zeros 8) 0 (firstn plen rest) ;;
       Ok (pos, plen, tmp)
     else
       pos <- idx fullKey (depth + prefixLen) ;;
       let off := depth + prefixLen + 1 in
       let plen := n_plen n - (prefixLen + 1) in
       src <- slice fullKey off (off + plen) ;;
       tmp <- copy_at (zeros 8) 0 src ;;
       Ok (pos, plen, tmp)) ;;
  nn3 <- insertChild nn2 pos (PNode a) ;;
  Ok (set_prefix (set_plen n plen) tmp, nn3).

(** node.go:425-439: effect of compressChild on the parent's prefix buffer and the new
    prefix and prefixLen of the child. *)
Definition mergePrefix (n child : node) (i : nat) : res (bytes * bytes * nat) :=
  ' (pre, pl) <-
    (if Nat.ltb (n_plen n) maxPrefixLen then
       k <- idx (n_keys n) i ;;
       pre <- upd (n_prefix n) (n_plen n) k ;; Ok (pre, n_plen n + 1)
     else Ok (n_prefix n, n_plen n)) ;;
  ' (pre2, pl2) <-
    (if Nat.ltb pl maxPrefixLen then
       let sub := Nat.min (n_plen child) (maxPrefixLen - pl) in
       src <- slice (n_prefix child) 0 sub ;;
       pre2 <- copy_at pre pl src ;; Ok (pre2, pl + sub)
     else Ok (pre, pl)) ;;
  src <- slice pre2 0 (Nat.min pl2 maxPrefixLen) ;;
  tmp <- copy_at (zeros 8) 0 src ;;
  Ok (pre2, tmp, n_plen child + (n_plen n + 1)).
