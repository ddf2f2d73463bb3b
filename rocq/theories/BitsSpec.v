(** * Independent specification of bit strings (used to state C30-C34). *)
From Verif Require Import Base.

(** A level: 64-bit words, [n] of whose bits are used, unused bits clear, words in range. *)
Definition word_bits (ws : list N) (n : nat) : list bool :=
  map (fun i => N.testbit (nth (i / 64) ws 0%N) (N.of_nat (i mod 64))) (seq 0 n).
Definition clean_level (ws : list N) (n : nat) : Prop :=
  Forall (fun w => (w < 2 ^ 64)%N) ws /\ n <= 64 * length ws /\
  forall i, n <= i < 64 * length ws -> N.testbit (nth (i / 64) ws 0%N) (N.of_nat (i mod 64)) = false.
(** All levels one after the other. *)
Fixpoint all_bits (levels : list (list N)) (nums : list nat) : list bool :=
  match levels, nums with
  | ws :: ls, n :: ns => word_bits ws n ++ all_bits ls ns
  | _, _ => []
  end.
(** Number of [true]s. *)
Fixpoint ones (B : list bool) : nat :=
  match B with [] => 0 | b :: t => (if b then 1 else 0) + ones t end.
(** Position of the [k]-th [true], from 1. *)
Definition kth_one (B : list bool) (k p : nat) : Prop :=
  nth_error B p = Some true /\ ones (firstn p B) = k - 1.
(** Next / previous set bit *)
Definition next_one (B : list bool) (p q : nat) : Prop :=
  p < q /\ nth_error B q = Some true /\ forall i, p < i < q -> nth_error B i <> Some true.
Definition prev_one (B : list bool) (p q : nat) : Prop :=
  q < p /\ nth_error B q = Some true /\ forall i, q < i < p -> nth_error B i <> Some true.
