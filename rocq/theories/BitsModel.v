(** * Model of surf/bits.go and surf/bits_amd64.s (64-bit word operations). *)
From Verif Require Import Base.
Open Scope N_scope.

Definition two64 : N := 2 ^ 64.
(** uint64 truncation. *)
Definition w64 (x : N) : N := x mod two64.
(** uint64 subtraction (wraps). *)
Definition sub64 (a b : N) : N := (a + two64 - b mod two64) mod two64.
(** uint64 shifts: [x << n], [x >> n] (a shift by 64 or more gives 0). *)
Definition shl64 (x n : N) : N := w64 (N.shiftl x n).
Definition shr64 (x n : N) : N := N.shiftr x n.

(** math/bits.OnesCount64 *)
Fixpoint popp (p : positive) : nat :=
  match p with xH => 1 | xO p => popp p | xI p => S (popp p) end.
Definition pop (x : N) : nat := match x with N0 => 0%nat | Npos p => popp p end.

(** math/bits.TrailingZeros64 *)
Fixpoint ctzp (p : positive) : nat :=
  match p with xO p => S (ctzp p) | _ => 0 end.
Definition ctz64 (x : N) : nat := match x with N0 => 64%nat | Npos p => ctzp p end.

(** math/bits.Len64 and LeadingZeros64 *)
Definition len64 (x : N) : nat := N.to_nat (N.size x).
Definition clz64 (x : N) : nat := 64 - len64 x.

(** surf/bits.go:24-26 findFirstSet: [bits.TrailingZeros64(uint64(x&-x)) + 1].
    [x] is a Go int, only used on non-negative values. *)
Definition findFirstSet (x : N) : nat := ctz64 (N.land x (sub64 0 x)) + 1.

(** surf/bits.go:28-39 selectInByte; the loop counts [j] down to 0. *)
Fixpoint selectInByte_loop (j : nat) (i : N) (r : nat) : N * nat :=
  match j with
  | O => (i, r)
  | S j' => let s := findFirstSet i in
            selectInByte_loop j' (N.shiftr i (N.of_nat s)) (r + s)
  end.
Definition selectInByte (i : N) (j : nat) : nat :=
  let '(i', r) := selectInByte_loop j i 0 in
  if i' =? 0 then 8%nat else (r + findFirstSet i' - 1)%nat.

(** surf/bits.go:14-22 selectInByteLut: a [256][8]int table filled by selectInByte;
    indexing outside it panics. *)
Definition selectInByteLut (i j : N) : res nat :=
  if (i <? 256) && (j <? 8) then Ok (selectInByte i (N.to_nat j)) else Panic.

Definition onesStep4 : N := 0x1111111111111111.
Definition onesStep8 : N := 0x0101010101010101.
Definition msbsStep8 : N := 0x80 * onesStep8.

(** surf/bits.go:41-60 select64Broadword *)
Definition select64Broadword (x : N) (nth : N) : res nat :=
  let k := sub64 nth 1 in
  let s := x in
  let s := sub64 s (shr64 (N.land s (0xa * onesStep4)) 1) in
  let s := w64 (N.land s (0x3 * onesStep4) + N.land (shr64 s 2) (0x3 * onesStep4)) in
  let s := N.land (w64 (s + shr64 s 4)) (0xf * onesStep8) in
  let byteSums := w64 (s * onesStep8) in
  let step8 := w64 (k * onesStep8) in
  let geqKStep8 := N.land (sub64 (N.lor step8 msbsStep8) byteSums) msbsStep8 in
  let place := (pop geqKStep8 * 8)%nat in
  let byteRank := sub64 k (N.land (shr64 (shl64 byteSums 8) (N.of_nat place)) 0xff) in
  q <- selectInByteLut (N.land (shr64 x (N.of_nat place)) 0xff) byteRank ;;
  Ok (place + q)%nat.

(** Intel PDEP, as documented by the ISA manual: scan the mask from bit 0, giving
    its set bits the successive low bits of the source. [n] bits remain, [i] is the
    current mask bit, [j] the next source bit. *)
Fixpoint pdep_loop (n : nat) (i j : N) (src mask acc : N) : N :=
  match n with
  | O => acc
  | S n' =>
      if N.testbit mask i then
        pdep_loop n' (i + 1) (j + 1) src mask
          (if N.testbit src j then N.setbit acc i else acc)
      else pdep_loop n' (i + 1) j src mask acc
  end.
Definition pdep64 (src mask : N) : N := pdep_loop 64 0 0 src mask 0.

(** surf/bits_amd64.s:3-21 select64. With BMI2: DECQ k; BX := 1 << (k mod 64);
    PDEP; TZCNT. Without: call select64Broadword. *)
Definition select64_amd64 (hasBMI2 : bool) (x k : N) : res nat :=
  if hasBMI2 then
    let cx := sub64 k 1 in
    let bx := shl64 1 (cx mod 64) in
    Ok (ctz64 (pdep64 bx x))
  else select64Broadword x k.

(** surf/bits_others.go:5-7 select64 on other platforms. *)
Definition select64_other (x k : N) : res nat := select64Broadword x k.

Close Scope N_scope.

(** surf/bits.go:62-76 popcountBlock *)
Fixpoint popcount_words (bs : list N) (off : nat) (n : nat) : res nat :=
  match n with
  | O => Ok 0
  | S n' => w <- idx bs off ;; p <- popcount_words bs (S off) n' ;; Ok (pop w + p)
  end.
Definition popcountBlock (bs : list N) (off nbits : nat) : res nat :=
  if nbits =? 0 then Ok 0 else
  let lastWord := (nbits - 1) / 64 in
  let lastBits := (nbits - 1) mod 64 in
  p <- popcount_words bs off lastWord ;;
  w <- idx bs (off + lastWord) ;;
  Ok (p + pop (shl64 w (N.of_nat (64 - 1 - lastBits)))).

(** surf/bits.go:78-82 readBit *)
Definition readBit (bs : list N) (pos : nat) : res bool :=
  w <- idx bs (pos / 64) ;;
  Ok (negb (N.land w (shl64 1 (N.of_nat (pos mod 64))) =? 0)%N).

(** surf/bits.go:84-88 setBit *)
Definition setBit (bs : list N) (pos : nat) : res (list N) :=
  w <- idx bs (pos / 64) ;;
  upd bs (pos / 64) (N.lor w (shl64 1 (N.of_nat (pos mod 64)))).

(** surf/bits.go:90-92 align: [(off + 7) & ^7]. *)
Definition align (off : nat) : nat := (off + 7) / 8 * 8.
