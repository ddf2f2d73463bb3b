(** * Specification of the SuRF filter, independent of its encoding.

    Only byte strings and lists of keys appear here. *)
From Verif Require Import Base.

(** The distinguishing prefix of [s] among [keys]: its shortest non-empty prefix that
    no other key has, or all of [s] when every prefix is shared. *)
Definition unique_prefix (keys : list bytes) (s : bytes) (n : nat) : bool :=
  forallb (fun k => beqb k s || negb (is_prefixb (firstn n s) k)) keys.
Definition dprefix (keys : list bytes) (s : bytes) : bytes :=
  match find (unique_prefix keys s) (seq 1 (length s)) with
  | Some n => firstn n s
  | None => s
  end.

(** What a hit on [q] may rest on: the stored key [s] agrees with [q] on [s]'s
    distinguishing prefix, or [q] ends inside a path shared by all keys extending it. *)
Definition backed (keys : list bytes) (s q : bytes) : Prop :=
  is_prefix (dprefix keys s) q \/
  (is_prefix q s /\ forall k, In k keys -> is_prefix q k -> is_prefix s k).

(** [q] is a proper prefix of some stored key. *)
Definition proper_prefix_of_some (keys : list bytes) (q : bytes) : Prop :=
  exists k, In k keys /\ is_prefix q k /\ k <> q.

(** What Build is given: value size [vs], hash and real suffix lengths [h] and [r],
    strictly increasing keys of bytes with one value of at least [vs] bytes each.
    [v_notempty] excludes the single empty key (Build panics on it, C22); [v_fits] says
    that the filter's positions fit the uint32 counters the code uses. *)
Record valid_input (vs h r : nat) (keys vals : list bytes) : Prop := {
  v_ne : keys <> [];
  v_inc : increasing keys;
  v_notempty : keys <> [[]];
  v_byte : Forall (fun k => wf_bytes k = true) keys;
  v_vals : length keys <= length vals;
  v_size : Forall (fun v => vs <= length v) (firstn (length keys) vals);
  v_suffix : h + r <= 64;
  v_fits : (N.of_nat (length (concat keys)) < 4294967296)%N
}.
