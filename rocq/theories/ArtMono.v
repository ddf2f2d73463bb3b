(** * ArtMono: more fuel never changes an answer. *)
From Verif Require Import Base BitsModel VecModel ArtNode ArtModel.

Definition leR {A} (x y : res A) : Prop := x = Hang \/ x = y.
Lemma leR_refl {A} (x : res A) : leR x x.
Proof. now right. Qed.
Lemma leR_Hang {A} (y : res A) : leR Hang y.
Proof. now left. Qed.
Lemma leR_bind {A B} (x y : res A) (f g : A -> res B) : leR x y -> (forall a, leR (f a) (g a)) -> leR (bind x f) (bind y g).
Proof.
  intros [->| ->] H; [now left|]. destruct y; cbn; [apply H|now right|now left].
Qed.
Lemma leR_Ok {A} (x y : res A) a : leR x y -> x = Ok a -> y = Ok a.
Proof. intros [->| ->]; [discriminate|auto]. Qed.
Lemma leR_not {A} (x y : res A) : leR x y -> x <> Hang -> y = x.
Proof. intros [->| ->]; [congruence|auto]. Qed.

Ltac mono :=
  repeat first
    [ apply leR_refl
    | apply leR_Hang
    | assumption
    | match goal with
      | |- leR (bind _ _) (bind _ _) => apply leR_bind; [|intros]
      | |- leR (match ?x with _ => _ end) (match ?x with _ => _ end) => destruct x
      end
    | match goal with H : forall _, _ |- _ => apply H; lia end ].

Lemma fullKey_mono : forall f1 f2 m curr v, f1 <= f2 -> leR (fullKey f1 m curr v) (fullKey f2 m curr v).
Proof. induction f1 as [|f1 IH]; intros [|f2] m curr v H; cbn [fullKey]; try lia; mono. Qed.
Lemma fullKey_retry_mono f1 f2 : f1 <= f2 -> forall r1 r2 m a p v pv g, r1 <= r2 ->
  leR (fullKey_retry f1 r1 m a p v pv g) (fullKey_retry f2 r2 m a p v pv g).
Proof.
  intros H. pose proof fullKey_mono as FM.
  induction r1 as [|r1 IH]; intros [|r2] m a p v pv g Hr; cbn [fullKey_retry]; try lia; mono.
Qed.
Lemma prefixMismatch_mono f1 f2 m a key d p v pv : f1 <= f2 ->
  leR (prefixMismatch f1 m a key d p v pv) (prefixMismatch f2 m a key d p v pv).
Proof.
  intros H. unfold prefixMismatch. mono. apply fullKey_retry_mono; auto.
Qed.
Lemma insert_mono : forall f1 f2 g1 g2 m key value depth parent pv l curr, f1 <= f2 -> g1 <= g2 ->
  leR (insert f1 g1 m key value depth parent pv l curr) (insert f2 g2 m key value depth parent pv l curr).
Proof.
  induction f1 as [|f1 IH]; intros [|f2] g1 g2 m key value depth parent pv l curr H G; cbn [insert]; try lia; [mono|mono|].
  pose proof prefixMismatch_mono as PM. mono.
Qed.
Lemma Put_loop_mono f1 f2 : f1 <= f2 -> forall r1 r2 m key value, r1 <= r2 ->
  leR (Put_loop f1 r1 m key value) (Put_loop f2 r2 m key value).
Proof.
  intros H. pose proof insert_mono as IM.
  induction r1 as [|r1 IH]; intros [|r2] m key value Hr; cbn [Put_loop]; try lia; mono.
Qed.
Lemma Put_mono f1 f2 m key value : f1 <= f2 -> leR (Put f1 m key value) (Put f2 m key value).
Proof. intros. now apply Put_loop_mono. Qed.
Lemma search_mono : forall f1 f2 m key depth parent pv curr, f1 <= f2 ->
  leR (search f1 m key depth parent pv curr) (search f2 m key depth parent pv curr).
Proof. induction f1 as [|f1 IH]; intros [|f2] m key depth parent pv curr H; cbn [search]; try lia; mono. Qed.
Lemma Get_mono f1 f2 m key : f1 <= f2 -> leR (Get f1 m key) (Get f2 m key).
Proof.
  intros H. unfold Get. assert (G : forall r1 r2, r1 <= r2 -> leR (Get_loop f1 r1 m key) (Get_loop f2 r2 m key)); [|auto].
  pose proof search_mono as IM.
  induction r1 as [|r1 IH]; intros [|r2] Hr; cbn [Get_loop]; try lia; mono.
Qed.
Lemma remove_mono : forall f1 f2 m key depth parent pv l curr, f1 <= f2 ->
  leR (remove f1 m key depth parent pv l curr) (remove f2 m key depth parent pv l curr).
Proof. induction f1 as [|f1 IH]; intros [|f2] m key depth parent pv l curr H; cbn [remove]; try lia; mono. Qed.
Lemma Delete_mono f1 f2 m key : f1 <= f2 -> leR (Delete f1 m key) (Delete f2 m key).
Proof.
  intros H. unfold Delete. revert m.
  assert (G : forall r1 r2, r1 <= r2 -> forall m, leR (Delete_loop f1 r1 m key) (Delete_loop f2 r2 m key)); [|auto].
  pose proof remove_mono as IM.
  induction r1 as [|r1 IH]; intros [|r2] Hr m; cbn [Delete_loop]; try lia; mono.
Qed.
