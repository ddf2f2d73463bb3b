(** * SurfGetSpec: what a filter remembers of a key beyond its distinguishing prefix.

    Only bits and bytes of the keys and of their hashes appear here. *)
From Verif Require Import Base SurfSpec.

(** The [h] hash bits kept: bits 7 to 6+h of the 64-bit hash.  With more than 57 bits none
    survives (the code's shift count wraps around). *)
Definition same_hash (fp : bytes -> N) (h : nat) (k q : bytes) : Prop :=
  h <= 57 -> forall j, j < h -> N.testbit (fp k) (N.of_nat (7 + j)) = N.testbit (fp q) (N.of_nat (7 + j)).

(** The [r] key bits kept of what follows the first [L] bytes, as whole bytes and a rest, if the
    key is long enough.  Only the first byte and the rest are taken after position [L]: byte
    number [i] in between is byte [i] of the whole key. *)
Definition real_part (L r : nat) (k : bytes) : option (list nat * nat) :=
  if Nat.leb r (8 * (length k - L)) then
    Some (map (fun i => nth (if Nat.eqb i 0 then L else i) k 0) (seq 0 (r / 8)), nth (L + r / 8) k 0 / 2 ^ (8 - r mod 8))
  else None.
Definition zero_part (p : list nat * nat) : Prop := (forall x, In x (fst p) -> x = 0) /\ snd p = 0.
(** A key that is too short counts as all zeroes. *)
Definition real_or_zero (L r : nat) (k : bytes) : list nat * nat :=
  match real_part L r k with Some p => p | None => (repeat 0 (r / 8), 0) end.

(** What is kept of [k] beyond the first [L] bytes does not tell it from [q]. *)
Definition suffix_agrees (fp : bytes -> N) (h r L : nat) (k q : bytes) : Prop :=
  match h, r with
  | O, O => True
  | S _, O => same_hash fp h k q
  | O, S _ => zero_part (real_or_zero L r k) \/ real_part L r k = real_part L r q
  | S _, S _ => same_hash fp h k q /\ real_or_zero L r k = real_or_zero L r q
  end.

(** [k] is a proper prefix of another stored key. *)
Definition continued (keys : list bytes) (k : bytes) : Prop := exists k', In k' keys /\ is_prefix k k' /\ k' <> k.

(** Two stored keys agree exactly on [w]. *)
Definition splitb (keys : list bytes) (w : bytes) : bool :=
  existsb (fun k1 => existsb (fun k2 => is_prefixb w k1 && is_prefixb w k2 &&
    negb (beqb (firstn (S (length w)) k1) (firstn (S (length w)) k2))) keys) keys.
(** The number of branchings above the end of [q]. *)
Definition levels_above (keys : list bytes) (q : bytes) : nat := length (filter (fun j => splitb keys (firstn j q)) (seq 0 (length q))).
(** [q] ends right after a branching (or is empty), inside a path that all its extensions share
    and that ends in the stored key [k], itself a proper prefix of another one. *)
Definition gap (keys : list bytes) (k q : bytes) : Prop :=
  continued keys k /\ is_prefix q k /\ q <> k /\ (forall k', In k' keys -> is_prefix q k' -> is_prefix k k') /\
  (q = [] \/ splitb keys (removelast q) = true).

(** Why Get answers [q] with the value of the stored key [k], when the first [dense] levels of
    branchings are stored densely. *)
Inductive hit_by (fp : bytes -> N) (h r dense : nat) (keys : list bytes) (k q : bytes) : Prop :=
| hit_stored : k = q -> hit_by fp h r dense keys k q
| hit_prefix : ~ continued keys k -> is_prefix (dprefix keys k) q -> suffix_agrees fp h r (length (dprefix keys k)) k q ->
    hit_by fp h r dense keys k q
| hit_gap : gap keys k q -> dense <= levels_above keys q -> same_hash fp h k q -> hit_by fp h r dense keys k q
| hit_255 : keys = [k] -> q = [] -> hd 0 k = 255 -> suffix_agrees fp h r 1 k q -> hit_by fp h r dense keys k q.
