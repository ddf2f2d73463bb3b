(** * Base: result monad, Go slices, byte strings and their order.

    Conventions of the whole model:
    - a byte is a [nat] below 256, a byte string is a [list nat];
    - a 64-bit word is an [N] below 2^64, arithmetic on words wraps explicitly;
    - indices, lengths and counts (Go [int]/[uint32]) are [nat], except where the
      code lets an unsigned value wrap below zero, which is written explicitly;
    - a Go run-time panic is the result [Panic]; a loop whose fuel ran out is [Hang]. *)
From Coq Require Export List Arith NArith ZArith Lia Bool.
From Coq Require Export ZifyBool ZifyNat ZifyN.
Export ListNotations.

(** Outcome of a Go call. *)
Inductive res (A : Type) : Type :=
| Ok (a : A)
| Panic
| Hang.
Arguments Ok {A} a.
Arguments Panic {A}.
Arguments Hang {A}.

Definition bind {A B} (m : res A) (f : A -> res B) : res B :=
  match m with Ok a => f a | Panic => Panic | Hang => Hang end.

Declare Scope res_scope.
Delimit Scope res_scope with res.
Notation "x <- e ;; f" := (bind e (fun x => f))
  (at level 100, e at next level, right associativity) : res_scope.
Notation "' p <- e ;; f" := (bind e (fun p => f))
  (at level 100, p pattern, e at next level, right associativity) : res_scope.
Open Scope res_scope.

Lemma bind_Ok {A B} (m : res A) (f : A -> res B) (b : B) :
  bind m f = Ok b <-> exists a, m = Ok a /\ f a = Ok b.
Proof.
  split.
  - destruct m as [a| |]; cbn; intros H; try discriminate. exists a; split; [reflexivity|exact H].
  - intros [a [-> H]]; exact H.
Qed.

(** Go [l[i]]: panics when out of range. *)
Definition idx {A} (l : list A) (i : nat) : res A :=
  match nth_error l i with Some x => Ok x | None => Panic end.

(** Replace element [i] (no-op when out of range; used behind [upd]). *)
Fixpoint set_nth {A} (l : list A) (i : nat) (x : A) : list A :=
  match l, i with
  | [], _ => []
  | _ :: t, O => x :: t
  | h :: t, S j => h :: set_nth t j x
  end.

(** Go [l[i] = x]: panics when out of range. *)
Definition upd {A} (l : list A) (i : nat) (x : A) : res (list A) :=
  if Nat.ltb i (length l) then Ok (set_nth l i x) else Panic.

(** Go [l[a:b]]: panics unless a <= b <= len(l). (Go allows b up to cap(l); no
    slice in the modelled code relies on that, see DESIGN.md.) *)
Definition slice {A} (l : list A) (a b : nat) : res (list A) :=
  if Nat.leb a b && Nat.leb b (length l) then Ok (firstn (b - a) (skipn a l)) else Panic.

(** Bytes and byte strings. *)
Notation byte := nat (only parsing).
Notation bytes := (list nat) (only parsing).
Definition is_byte (b : byte) : bool := Nat.ltb b 256.
Definition wf_bytes (k : bytes) : bool := forallb is_byte k.

Fixpoint beqb (a b : bytes) : bool :=
  match a, b with
  | [], [] => true
  | x :: a', y :: b' => Nat.eqb x y && beqb a' b'
  | _, _ => false
  end.

(** Go [bytes.Compare]: lexicographic order on byte strings. *)
Fixpoint bcompare (a b : bytes) : comparison :=
  match a, b with
  | [], [] => Eq
  | [], _ :: _ => Lt
  | _ :: _, [] => Gt
  | x :: a', y :: b' =>
      match Nat.compare x y with Eq => bcompare a' b' | c => c end
  end.

Definition blt (a b : bytes) : Prop := bcompare a b = Lt.
Definition ble (a b : bytes) : Prop := bcompare a b <> Gt.

(** Prefix relation on byte strings. *)
Definition is_prefix (a b : bytes) : Prop := exists c, b = a ++ c.

Fixpoint is_prefixb (a b : bytes) : bool :=
  match a, b with
  | [], _ => true
  | x :: a', y :: b' => Nat.eqb x y && is_prefixb a' b'
  | _ :: _, [] => false
  end.

(** Strictly increasing lists of keys. *)
Fixpoint increasing (l : list bytes) : Prop :=
  match l with
  | a :: ((b :: _) as t) => blt a b /\ increasing t
  | _ => True
  end.

(** Number of indices [i < n] with [f i = true]. *)
Fixpoint cnt (f : nat -> bool) (n : nat) : nat :=
  match n with
  | O => 0
  | S m => cnt f m + (if f m then 1 else 0)
  end.

(* ------------------------------------------------------------------ *)
(** ** Facts *)

Lemma idx_Ok {A} (l : list A) i x : idx l i = Ok x <-> nth_error l i = Some x.
Proof. unfold idx. destruct (nth_error l i); split; intros H; inversion H; reflexivity. Qed.

Lemma set_nth_length {A} (l : list A) i x : length (set_nth l i x) = length l.
Proof. revert i; induction l as [|h t IH]; intros [|i]; cbn; auto. Qed.

Lemma nth_error_set_nth_eq {A} (l : list A) i x :
  i < length l -> nth_error (set_nth l i x) i = Some x.
Proof. revert i; induction l as [|h t IH]; intros [|i] H; cbn in *; try lia; auto. apply IH; lia. Qed.

Lemma nth_error_set_nth_ne {A} (l : list A) i j x :
  i <> j -> nth_error (set_nth l i x) j = nth_error l j.
Proof.
  revert i j; induction l as [|h t IH]; intros [|i] [|j] H; cbn; auto; try congruence.
Qed.

Lemma nth_error_set_nth {A} (l : list A) i j x :
  nth_error (set_nth l i x) j =
  if Nat.eqb i j then (if Nat.ltb i (length l) then Some x else None) else nth_error l j.
Proof.
  destruct (Nat.eqb_spec i j) as [->|H].
  - destruct (Nat.ltb_spec j (length l)).
    + now apply nth_error_set_nth_eq.
    + apply nth_error_None. rewrite set_nth_length; lia.
  - now apply nth_error_set_nth_ne.
Qed.

Lemma upd_Ok {A} (l l' : list A) i x :
  upd l i x = Ok l' <-> i < length l /\ l' = set_nth l i x.
Proof.
  unfold upd. destruct (Nat.ltb_spec i (length l)); split.
  - intros E; inversion E; auto.
  - intros [_ ->]; reflexivity.
  - discriminate.
  - lia.
Qed.

Lemma beqb_eq a b : beqb a b = true <-> a = b.
Proof.
  revert b; induction a as [|x a IH]; intros [|y b]; cbn; split; intros H; try congruence; auto.
  - apply andb_true_iff in H as [H1 H2]. apply Nat.eqb_eq in H1. apply IH in H2. congruence.
  - inversion H; subst. rewrite Nat.eqb_refl. cbn. now apply IH.
Qed.

Lemma beqb_refl a : beqb a a = true.
Proof. now apply beqb_eq. Qed.

Lemma beqb_neq a b : beqb a b = false <-> a <> b.
Proof.
  split.
  - intros H E. apply beqb_eq in E. congruence.
  - intros H. destruct (beqb a b) eqn:E; auto. apply beqb_eq in E. congruence.
Qed.

Lemma is_prefixb_iff a b : is_prefixb a b = true <-> is_prefix a b.
Proof.
  unfold is_prefix. revert b; induction a as [|x a IH]; intros b; cbn.
  - split; auto. intros _. now exists b.
  - destruct b as [|y b].
    + split; [discriminate|]. intros [c H]; discriminate.
    + rewrite andb_true_iff, Nat.eqb_eq, IH. split.
      * intros [-> [c ->]]. now exists c.
      * intros [c H]. inversion H; subst. split; auto. now exists c.
Qed.

Lemma bcompare_refl a : bcompare a a = Eq.
Proof. induction a; cbn; auto. rewrite Nat.compare_refl; auto. Qed.

Lemma bcompare_eq a b : bcompare a b = Eq <-> a = b.
Proof.
  split; [|intros ->; apply bcompare_refl].
  revert b; induction a as [|x a IH]; intros [|y b]; cbn; try congruence.
  destruct (Nat.compare_spec x y); try congruence. intros E. f_equal; auto.
Qed.

Lemma bcompare_antisym a b : bcompare b a = CompOpp (bcompare a b).
Proof.
  revert b; induction a as [|x a IH]; intros [|y b]; cbn; auto.
  rewrite (Nat.compare_antisym x y). destruct (Nat.compare x y); cbn; auto.
Qed.

Lemma blt_trans a b c : blt a b -> blt b c -> blt a c.
Proof.
  unfold blt. revert b c; induction a as [|x a IH]; intros [|y b] [|z c]; cbn; try congruence.
  destruct (Nat.compare_spec x y), (Nat.compare_spec y z), (Nat.compare_spec x z);
    try congruence; try lia; subst; eauto.
Qed.

Lemma blt_irrefl a : ~ blt a a.
Proof. unfold blt. rewrite bcompare_refl. discriminate. Qed.

Lemma blt_ble a b : blt a b -> ble a b.
Proof. unfold blt, ble. intros ->. discriminate. Qed.

Lemma ble_refl a : ble a a.
Proof. unfold ble. rewrite bcompare_refl. discriminate. Qed.

Lemma ble_lteq a b : ble a b <-> blt a b \/ a = b.
Proof.
  unfold ble, blt. destruct (bcompare a b) eqn:E; split; intros H; try congruence; auto.
  - right. now apply bcompare_eq.
  - destruct H as [H|H]; [discriminate|]. apply bcompare_eq in H. congruence.
Qed.

Lemma not_ble_blt a b : ~ ble a b <-> blt b a.
Proof.
  unfold ble, blt. rewrite (bcompare_antisym a b). destruct (bcompare a b); cbn; split; intros H; try congruence; exfalso; apply H; congruence.
Qed.

Lemma ble_dec a b : {ble a b} + {blt b a}.
Proof.
  unfold ble, blt. rewrite (bcompare_antisym a b).
  destruct (bcompare a b); cbn; [left|left|right]; congruence.
Qed.

Lemma blt_ble_trans a b c : blt a b -> ble b c -> blt a c.
Proof. intros H1 H2. apply ble_lteq in H2 as [H2| <-]; auto. eapply blt_trans; eauto. Qed.

Lemma ble_blt_trans a b c : ble a b -> blt b c -> blt a c.
Proof. intros H1 H2. apply ble_lteq in H1 as [H1| ->]; auto. eapply blt_trans; eauto. Qed.

Lemma ble_trans a b c : ble a b -> ble b c -> ble a c.
Proof.
  intros H1 H2. apply ble_lteq in H1 as [H1| ->]; auto.
  apply blt_ble. eapply blt_ble_trans; eauto.
Qed.

Lemma bcompare_app p a b : bcompare (p ++ a) (p ++ b) = bcompare a b.
Proof. induction p; cbn; auto. rewrite Nat.compare_refl; auto. Qed.

Lemma increasing_cons a l :
  increasing (a :: l) -> increasing l /\ Forall (blt a) l.
Proof.
  revert a; induction l as [|b l IH]; intros a H; cbn in *; split; auto.
  - tauto.
  - destruct H as [H1 H2]. constructor; auto. apply IH in H2 as [_ H2].
    eapply Forall_impl; [|exact H2]. cbn. intros c Hc. eapply blt_trans; eauto.
Qed.

Lemma increasing_cons_iff a l :
  increasing (a :: l) <-> increasing l /\ Forall (blt a) l.
Proof.
  split; [apply increasing_cons|]. intros [H1 H2].
  destruct l as [|b l]; cbn; auto. inversion H2; subst. split; auto.
Qed.

Lemma increasing_NoDup l : increasing l -> NoDup l.
Proof.
  induction l as [|a l IH]; intros H; constructor.
  - apply increasing_cons in H as [_ H]. rewrite Forall_forall in H.
    intros Hin. apply H in Hin. now apply blt_irrefl in Hin.
  - apply IH. now apply increasing_cons in H.
Qed.

(** cnt *)
Lemma cnt_ext f g n : (forall i, i < n -> f i = g i) -> cnt f n = cnt g n.
Proof.
  induction n as [|n IH]; intros H; cbn; auto. rewrite IH, H; auto.
Qed.

Lemma cnt_add f n m : cnt f (n + m) = cnt f n + cnt (fun i => f (n + i)) m.
Proof.
  induction m as [|m IH]; cbn; [now rewrite Nat.add_0_r|].
  rewrite Nat.add_succ_r. cbn. rewrite IH. lia.
Qed.

Lemma cnt_le f n : cnt f n <= n.
Proof. induction n; cbn; [lia|]. destruct (f n); lia. Qed.

Lemma cnt_mono f n m : n <= m -> cnt f n <= cnt f m.
Proof. intros H. replace m with (n + (m - n)) by lia. rewrite cnt_add. lia. Qed.

Lemma cnt_false f n : (forall i, i < n -> f i = false) -> cnt f n = 0.
Proof. induction n as [|n IH]; intros H; cbn; auto. rewrite IH, H; auto. Qed.

(** A position is determined by being set and the number of set bits before it. *)
Lemma cnt_select_unique f p q :
  f p = true -> f q = true -> cnt f p = cnt f q -> p = q.
Proof.
  intros Hp Hq E. destruct (Nat.lt_trichotomy p q) as [H|[H|H]]; auto; exfalso.
  - assert (cnt f (S p) <= cnt f q) by (apply cnt_mono; lia). cbn in *. rewrite Hp in *. lia.
  - assert (cnt f (S q) <= cnt f p) by (apply cnt_mono; lia). cbn in *. rewrite Hq in *. lia.
Qed.

Lemma cnt_exists f n : 0 < cnt f n -> exists i, i < n /\ f i = true.
Proof.
  induction n as [|n IH]; cbn; [lia|]. destruct (f n) eqn:E; intros H.
  - exists n; split; auto; lia.
  - destruct IH as [i [Hi ?]]; [lia|]. exists i; split; auto; lia.
Qed.

Lemma cnt_select_exists f n k : k < cnt f n -> exists p, p < n /\ f p = true /\ cnt f p = k.
Proof.
  induction n as [|n IH]; cbn; [lia|]. intros H.
  destruct (Nat.lt_ge_cases k (cnt f n)) as [Hk|Hk].
  - destruct (IH Hk) as (p&?&?&?). exists p. auto.
  - destruct (f n) eqn:E; [|lia]. exists n. split; [lia|]. split; [auto|lia].
Qed.

Lemma skipn_nth_error {A} (l : list A) n i : nth_error (skipn n l) i = nth_error l (n + i).
Proof. revert l; induction n as [|n IH]; intros [|x l]; cbn; auto. now destruct i. Qed.

Lemma firstn_nth_error {A} (l : list A) n i :
  nth_error (firstn n l) i = if Nat.ltb i n then nth_error l i else None.
Proof.
  revert n i; induction l as [|x l IH]; intros [|n] [|i]; cbn; auto.
  - match goal with |- context [if ?b then _ else _] => now destruct b end.
  - rewrite IH. reflexivity.
Qed.

Lemma list_eq_nth_error {A} (l1 l2 : list A) :
  (forall i, nth_error l1 i = nth_error l2 i) -> l1 = l2.
Proof.
  revert l2; induction l1 as [|x l1 IH]; intros [|y l2] H; auto.
  - specialize (H 0); discriminate.
  - specialize (H 0); discriminate.
  - f_equal; [specialize (H 0); cbn in H; congruence|].
    apply IH. intros i. apply (H (S i)).
Qed.
