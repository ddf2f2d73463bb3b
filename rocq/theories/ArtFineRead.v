(** * ArtFineRead: a group of single-field reads answers as one atomic read of the node
    would when the node does not change meanwhile, and as a read of some well-shaped node
    otherwise. *)
From Verif Require Import Base BitsModel BitsFacts VecModel VecProofs VecProofs2 ArtNode
  ArtNodeProofs ArtNodeProofs2 ArtNodeProofs3 ArtModel ArtSpec ArtTree ArtTree2 ArtRep ArtRep2
  ArtTree3 ArtSeq ArtMono ArtSeq2 ArtSeq3 ArtConc ArtConcHeap ArtConcInv ArtConcStep ArtFine.
Ltac Zify.zify_post_hook ::= Z.div_mod_to_equations.

(** Every way the reads can end when the node is an arbitrary well-shaped one each time. *)
Inductive outs (t : ntype) (P : pc -> Prop) : rd -> Prop :=
  | outs_done p : P p -> outs t P (RDone p)
  | outs_more r : (forall n, shape t n -> outs t P (rstep n r)) -> outs t P r.

(** How they end when the node stays [n]. *)
Fixpoint eval (n : node) (r : rd) : pc :=
  match r with
  | RDone p => p
  | RNum k => eval n (k (n_num n))
  | RPlen k => eval n (k (n_plen n))
  | RWord k => eval n (k (n_prefix n))
  | RLeaf k => eval n (k (n_pleaf n))
  | RPre i k => eval n (k (idx (n_prefix n) i))
  | RKey i k => eval n (k (idx (n_keys n) i))
  | RChild i k => eval n (k (idx (n_children n) i))
  | RIdx i k => eval n (k (idx (n_index n) i))
  end.

Lemma eval_rstep n r : eval n (rstep n r) = eval n r.
Proof. now destruct r. Qed.
Lemma outs_fin t P p n : shape t n -> outs t P (RDone p) -> P p.
Proof.
  intros H X. remember (RDone p) as r eqn:E. revert p E. induction X as [q Q|r _ IH]; intros p E; [now inversion E; subst|].
  apply (IH n H p). now rewrite E.
Qed.
Lemma outs_step t P r n : shape t n -> outs t P r -> outs t P (rstep n r).
Proof. intros H X. destruct X as [p Q|r X]; [now apply outs_done|auto]. Qed.

Definition par_ok (m : mem) (p : pc) : Prop :=
  match p with DCmp _ f _ | DShr _ f _ _ _ => exists c, cell_at m (f_par f) = Some c | _ => True end.
Definition to (pt : ntype) (p : pc) (nd : node) (p' : pc) : Prop :=
  forall first m, par_ok m p -> ptype m p = pt -> tstep first nd m p = SGo m p'.

(** ** A node of each kind *)
Definition blank (t : ntype) : node :=
  match t with Node4 => newNode4 | Node16 => newNode16 | Node48 => newNode48 | Node256 => newNode256 | Dummy => dummyNode end.
Lemma shape_blank t : shape t (blank t).
Proof.
  destruct t; (split; [reflexivity|]; split; [reflexivity|]); cbn; repeat (split; [reflexivity|]); try lia; auto.
  split; [|lia]. apply Forall_forall. intros x X. change (In x (repeat 0 256)) in X. apply repeat_spec in X. lia.
Qed.
Lemma shape_plen t n x : shape t n -> shape t (set_plen n x).
Proof. exact (fun H => H). Qed.
Lemma shape_pleaf t n x : shape t n -> shape t (set_pleaf n x).
Proof. exact (fun H => H). Qed.
Lemma shape_prefix t n x : shape t n -> length x = 8 -> shape t (set_prefix n x).
Proof. intros (H1 & H2 & H3) L. split; [exact H1|]. split; [exact L|]. exact H3. Qed.
Definition num_ok (t : ntype) (x : nat) : Prop :=
  match t with Node4 => x <= 4 | Node16 => x <= 16 | Node48 => x <= 48 | Node256 => x < 256 | Dummy => True end.
Lemma shape_num t n : shape t n -> num_ok t (n_num n).
Proof. intros (_ & _ & H). destruct t; cbn; try tauto. Qed.
Lemma shape_set_num t n x : shape t n -> num_ok t x -> shape t (set_num n x).
Proof. intros (H1 & H2 & H3) L. split; [exact H1|]. split; [exact H2|]. destruct t; cbn in *; tauto. Qed.
Lemma shape_type t n : shape t n -> n_type n = t.
Proof. now intros (H & _). Qed.

(** ** findChild *)
Lemma indexByte_put b i r : indexByte (repeat (S b) i ++ b :: r) b = Some i.
Proof.
  induction i as [|i IH]; cbn [repeat app indexByte].
  - now rewrite Nat.eqb_refl.
  - rewrite (proj2 (Nat.eqb_neq (S b) b)) by lia. now rewrite IH.
Qed.
Lemma nth_error_put {A} (x y : A) i r : nth_error (repeat x i ++ y :: r) i = Some y.
Proof. rewrite nth_error_app2 by (rewrite repeat_length; lia). now rewrite repeat_length, Nat.sub_diag. Qed.

Definition with_key (t : ntype) (n b i : nat) (c : option ptr) : node :=
  mkNode t n 0 None (zeros 8) (repeat (S b) i ++ b :: repeat 0 (n - i - 1)) (repeat None i ++ c :: repeat None (n - i - 1)) [] 0.
Lemma with_key4 b i c : i < 4 -> shape Node4 (with_key Node4 4 b i c) /\ findChild (with_key Node4 4 b i c) b = Ok (c, i, i).
Proof.
  intros H. assert (LK : length (n_keys (with_key Node4 4 b i c)) = 4) by (cbn [with_key n_keys]; rewrite app_length; cbn [length]; rewrite !repeat_length; lia).
  split.
  - split; [reflexivity|]. split; [reflexivity|]. split; [exact LK|]. split; [|cbn; lia].
    cbn [with_key n_children]; rewrite app_length; cbn [length]; rewrite !repeat_length; lia.
  - unfold findChild. cbn [with_key n_type n_num]. rewrite find4_loop_spec by (rewrite LK; lia). cbn [skipn].
    rewrite firstn_all2 by (rewrite LK; lia). cbn [n_keys with_key]. rewrite indexByte_put. cbn [option_map bind Nat.add].
    cbn [with_key n_children]. unfold idx. rewrite nth_error_put. reflexivity.
Qed.
Lemma with_key16 b i c : i < 16 -> shape Node16 (with_key Node16 16 b i c) /\ findChild (with_key Node16 16 b i c) b = Ok (c, i, i).
Proof.
  intros H. assert (LK : length (n_keys (with_key Node16 16 b i c)) = 16) by (cbn [with_key n_keys]; rewrite app_length; cbn [length]; rewrite !repeat_length; lia).
  split.
  - split; [reflexivity|]. split; [reflexivity|]. split; [exact LK|]. split; [|cbn; lia].
    cbn [with_key n_children]; rewrite app_length; cbn [length]; rewrite !repeat_length; lia.
  - unfold findChild. cbn [with_key n_type n_num n_keys]. rewrite indexByte_put. rewrite (proj2 (Nat.ltb_lt i 16) H).
    cbn [with_key n_children]. unfold idx. rewrite nth_error_put. reflexivity.
Qed.
Definition with_idx (b ix : nat) (c : option ptr) : node :=
  set_children (set_index newNode48 (set_nth (zeros 256) b ix)) (set_nth (nils 48) (ix - 1) c).
Lemma Forall_set_nth {A} (P : A -> Prop) l i x : Forall P l -> P x -> Forall P (set_nth l i x).
Proof.
  rewrite !Forall_forall. intros H Hx y Hy. apply In_nth_error in Hy as (j & Hj). rewrite nth_error_set_nth in Hj.
  destruct (Nat.eqb i j); [|apply H; eapply nth_error_In; eauto].
  destruct (Nat.ltb i (length l)); [injection Hj as <-; exact Hx|discriminate].
Qed.
Lemma with_idx48 b ix c : b < 256 -> 0 < ix -> ix <= 48 -> shape Node48 (with_idx b ix c) /\ findChild (with_idx b ix c) b = Ok (c, ix - 1, b).
Proof.
  intros H H0 H1. split.
  - split; [reflexivity|]. split; [reflexivity|]. unfold with_idx. cbn [n_index n_children set_children set_index n_num newNode48].
    rewrite !set_nth_length. split; [apply repeat_length|]. split; [apply repeat_length|]. split; [|lia].
    apply Forall_set_nth; auto. unfold zeros. apply Forall_forall. intros x X. apply repeat_spec in X. lia.
  - unfold findChild, with_idx. cbn [n_type newNode48 set_children set_index n_index n_children]. unfold idx.
    rewrite nth_error_set_nth_eq by (unfold zeros; rewrite repeat_length; lia). cbn [bind]. rewrite (proj2 (Nat.ltb_lt 0 ix) H0).
    rewrite nth_error_set_nth_eq by (unfold nils; rewrite repeat_length; lia). reflexivity.
Qed.
Lemma blank_find t b : (t = Node256 -> False) -> b < 256 -> findChild (blank t) b = Ok (None, 0, 0).
Proof.
  intros H Hb. destruct t; try reflexivity; [| |now destruct H].
  - unfold findChild, blank, newNode16. cbn [n_type n_keys n_num]. destruct (indexByte _ b); [rewrite (proj2 (Nat.ltb_ge _ 0)) by lia|]; reflexivity.
  - unfold findChild, blank, newNode48. cbn [n_type n_index]. unfold idx.
    rewrite (nth_error_nth' _ 0) by (unfold zeros; rewrite repeat_length; lia). cbn [bind]. unfold zeros. now rewrite nth_repeat.
Qed.

Section Find.
Context (o : op) (t : ntype) (P : pc -> Prop) (b : byte) (k : option ptr * nat * nat -> rd).
Context (K : forall x nd, shape t nd -> findChild nd b = Ok x -> outs t P (k x)).
Context (C : forall nd, shape t nd -> (forall x, findChild nd b <> Ok x) -> P (PCrash o)).

Lemma idx_cases {A} (l : list A) i : (i < length l /\ exists x, nth_error l i = Some x /\ idx l i = Ok x) \/ (length l <= i /\ idx l i = Panic).
Proof.
  unfold idx. destruct (nth_error l i) eqn:E; [left|right].
  - split; [|eauto]. apply nth_error_Some. congruence.
  - split; auto. now apply nth_error_None in E.
Qed.

Lemma find_outs : outs t P (find_rd o b k t).
Proof.
  destruct t eqn:Et; cbn [find_rd].
  - assert (N0 : outs Node4 P (k (None, 0, 0))) by exact (K _ _ (shape_blank Node4) eq_refl).
    assert (X : forall fuel i, i <= 4 -> 5 <= fuel + i -> outs Node4 P (find4_rd o b k fuel i)).
    { induction fuel as [|fuel IH]; intros i H4 Hi; [lia|]. cbn [find4_rd].
      apply outs_more. intros n Hn. cbn [rstep]. pose proof (shape_num _ _ Hn) as Hm. cbn [num_ok] in Hm.
      destruct (Nat.ltb_spec i (n_num n)) as [L|L]; auto.
      apply outs_more. intros n2 Hn2. cbn [rstep]. destruct (idx_cases (n_keys n2) i) as [(_ & x & _ & ->)|(L2 & _)].
      2: { destruct Hn2 as (_ & _ & L3 & _). lia. }
      cbn [orc]. destruct (Nat.eqb x b).
      - apply outs_more. intros n3 Hn3. cbn [rstep]. destruct (idx_cases (n_children n3) i) as [(_ & c & _ & ->)|(L2 & _)].
        2: { destruct Hn3 as (_ & _ & _ & L3 & _). lia. }
        cbn [orc]. destruct (with_key4 b i c ltac:(lia)) as (S1 & S2). exact (K _ _ S1 S2).
      - apply IH; lia. }
    apply X; lia.
  - assert (N0 : outs Node16 P (k (None, 0, 0))).
    { apply (K _ _ (shape_blank Node16)). unfold findChild, blank, newNode16. cbn [n_type n_keys n_num].
      destruct (indexByte _ b); [rewrite (proj2 (Nat.ltb_ge _ 0)) by lia|]; reflexivity. }
    assert (X : forall fuel i, fuel + i = 16 -> outs Node16 P (find16_rd o b k fuel i)).
    { induction fuel as [|fuel IH]; intros i Hi; cbn [find16_rd]; auto.
      apply outs_more. intros n2 Hn2. cbn [rstep]. destruct (idx_cases (n_keys n2) i) as [(_ & x & _ & ->)|(L2 & _)].
      2: { destruct Hn2 as (_ & _ & L3 & _). lia. }
      cbn [orc]. destruct (Nat.eqb x b).
      - apply outs_more. intros n Hn. cbn [rstep]. destruct (Nat.ltb i (n_num n)); auto.
        apply outs_more. intros n3 Hn3. cbn [rstep]. destruct (idx_cases (n_children n3) i) as [(_ & c & _ & ->)|(L2 & _)].
        2: { destruct Hn3 as (_ & _ & _ & L3 & _). lia. }
        cbn [orc]. destruct (with_key16 b i c ltac:(lia)) as (S1 & S2). exact (K _ _ S1 S2).
      - apply IH. lia. }
    apply X. lia.
  - apply outs_more. intros n Hn. cbn [rstep]. pose proof Hn as (HT & _ & L1 & L2 & F & _).
    destruct (idx_cases (n_index n) b) as [(LT & ix & E1 & E2)|(LT & E2)]; rewrite E2; cbn [orc].
    2: { apply outs_done. apply (C n Hn). intros x. unfold findChild. rewrite HT, E2. discriminate. }
    assert (B48 : ix <= 48). { rewrite Forall_forall in F. apply F. eapply nth_error_In; eauto. }
    destruct (Nat.ltb_spec 0 ix) as [LX|LX].
    + apply outs_more. intros n3 Hn3. cbn [rstep]. destruct (idx_cases (n_children n3) (ix - 1)) as [(_ & c & _ & ->)|(LL & _)].
      2: { destruct Hn3 as (_ & _ & _ & L3 & _). lia. }
      cbn [orc]. destruct (with_idx48 b ix c ltac:(lia) LX B48) as (S1 & S2). exact (K _ _ S1 S2).
    + apply (K _ _ (shape_blank Node48)). apply blank_find; [discriminate|lia].
  - apply outs_more. intros n Hn. cbn [rstep]. pose proof Hn as (HT & _ & L1 & _).
    destruct (idx_cases (n_children n) b) as [(LT & c & E1 & E2)|(LT & E2)]; rewrite E2; cbn [orc].
    + apply (K _ _ Hn). unfold findChild. now rewrite HT, E2.
    + apply outs_done. apply (C n Hn). intros x. unfold findChild. rewrite HT, E2. discriminate.
  - exact (K _ _ (shape_blank Dummy) eq_refl).
Qed.
End Find.

Section Eval.
Context (o : op) (n : node).

Lemma find_eval b k t : shape t n ->
  eval n (find_rd o b k t) = match findChild n b with Ok x => eval n (k x) | _ => PCrash o end.
Proof.
  intros Hn. pose proof Hn as (HT & _ & HL). unfold findChild. rewrite HT. destruct t; cbn [find_rd].
  - destruct HL as (LK & LC & LN).
    assert (X : forall fuel i, i <= n_num n -> n_num n < fuel + i ->
      eval n (find4_rd o b k fuel i) =
      match (x <- find4_loop n b (n_num n - i) i ;; match x with Some j => c <- idx (n_children n) j ;; Ok (c, j, j) | None => Ok (None, 0, 0) end)
      with Ok x => eval n (k x) | _ => PCrash o end).
    { induction fuel as [|fuel IH]; intros i H1 H2; [lia|]. cbn [find4_rd eval]. destruct (Nat.ltb_spec i (n_num n)) as [L|L].
      - replace (n_num n - i) with (S (n_num n - (i + 1))) by lia. cbn [find4_loop eval].
        destruct (idx (n_keys n) i) as [x| |]; cbn [orc bind eval]; auto. destruct (Nat.eqb x b).
        + cbn [bind eval]. destruct (idx (n_children n) i); cbn [orc bind eval]; auto.
        + apply IH; lia.
      - replace (n_num n - i) with 0 by lia. reflexivity. }
    rewrite X by lia. rewrite Nat.sub_0_r. reflexivity.
  - destruct HL as (LK & LC & LN).
    assert (X : forall fuel i, fuel + i = 16 -> eval n (find16_rd o b k fuel i) =
      match (match indexByte (skipn i (n_keys n)) b with
             | Some j => if Nat.ltb (i + j) (n_num n) then c <- idx (n_children n) (i + j) ;; Ok (c, i + j, i + j) else Ok (None, 0, 0)
             | None => Ok (None, 0, 0) end) with Ok x => eval n (k x) | _ => PCrash o end).
    { induction fuel as [|fuel IH]; intros i Hi; cbn [find16_rd eval].
      - rewrite skipn_all2 by lia. reflexivity.
      - destruct (idx_cases (n_keys n) i) as [(LT & x & E1 & E2)|(LT & E2)]; [|lia]. rewrite E2. cbn [orc].
        assert (ES : skipn i (n_keys n) = x :: skipn (i + 1) (n_keys n)).
        { clear -E1. replace (i + 1) with (S i) by lia. revert i E1. generalize (n_keys n). induction l as [|y l IH]; intros [|i] H; cbn in *; try discriminate.
          - now inversion H. - now apply IH. }
        rewrite ES. cbn [indexByte]. destruct (Nat.eqb x b).
        + cbn [eval]. rewrite Nat.add_0_r. destruct (Nat.ltb i (n_num n)); [|reflexivity]. cbn [eval].
          destruct (idx (n_children n) i); cbn [orc bind eval]; auto.
        + rewrite IH by lia. destruct (indexByte (skipn (i + 1) (n_keys n)) b) as [j|]; auto.
          replace (i + S j) with (i + 1 + j) by lia. reflexivity. }
    rewrite X by lia. cbn [skipn Nat.add]. reflexivity.
  - cbn [eval]. destruct (idx (n_index n) b) as [ix| |]; cbn [orc bind eval]; auto. destruct (Nat.ltb 0 ix); [|reflexivity].
    cbn [eval]. destruct (idx (n_children n) (ix - 1)); cbn [orc bind eval]; auto.
  - cbn [eval]. destruct (idx (n_children n) b); cbn [orc bind eval]; auto.
  - reflexivity.
Qed.

Lemma first_eval k t : n_type n = t ->
  eval n (first_rd o k t) = match firstChild n with Ok x => eval n (k x) | _ => PCrash o end.
Proof.
  intros HT. unfold firstChild. rewrite HT. destruct t; cbn [first_rd eval]; auto.
  - destruct (idx _ 0); reflexivity.
  - destruct (idx _ 0); reflexivity.
  - enough (X : forall f i, eval n (first48_rd o k f i) = match first48_loop n f i with Ok x => eval n (k x) | _ => PCrash o end) by apply X.
    induction f as [|f IH]; intros i; cbn [first48_rd first48_loop eval]; auto.
    destruct (idx (n_index n) i) as [ix| |]; cbn [orc bind eval]; auto. destruct (Nat.eqb ix 0); auto. cbn [eval].
    destruct (idx (n_children n) (ix - 1)); reflexivity.
  - enough (X : forall f i, eval n (first256_rd o k f i) = match first256_loop n f i with Ok x => eval n (k x) | _ => PCrash o end) by apply X.
    induction f as [|f IH]; intros i; cbn [first256_rd first256_loop eval]; auto.
    destruct (idx (n_children n) i) as [[c|]| |]; cbn [orc bind eval]; auto.
Qed.

Lemma miss_eval key k f i :
  eval n (miss_rd o key k f i) = match miss_loop (n_prefix n) key f i with Ok x => eval n (k x) | _ => PCrash o end.
Proof.
  revert i. induction f as [|f IH]; intros i; cbn [miss_rd miss_loop eval]; auto.
  destruct (idx (n_prefix n) i) as [x| |]; cbn [orc bind eval]; auto. destruct (idx key i) as [y| |]; cbn [orc bind eval]; auto.
  destruct (Nat.eqb x y); auto.
Qed.
End Eval.

Definition one48 (c : option ptr) : node := set_children (set_index newNode48 (1 :: repeat 0 255)) (c :: repeat None 47).
Definition one256 (c : option ptr) : node := set_children newNode256 (c :: repeat None 255).
Lemma shape_one48 c : shape Node48 (one48 c).
Proof.
  split; [reflexivity|]. split; [reflexivity|]. split; [reflexivity|]. split; [reflexivity|]. split; [|cbn; lia].
  constructor; [lia|]. apply Forall_forall. intros x X. apply repeat_spec in X. lia.
Qed.
Lemma shape_one256 c : shape Node256 (one256 c).
Proof. split; [reflexivity|]. split; [reflexivity|]. split; [reflexivity|]. cbn. lia. Qed.

Section First.
Context (o : op) (t : ntype) (P : pc -> Prop) (k : option ptr -> rd).
Context (K : forall x nd, shape t nd -> firstChild nd = Ok x -> outs t P (k x)).
Context (C : forall nd, shape t nd -> (forall x, firstChild nd <> Ok x) -> P (PCrash o)).

Lemma first_outs : outs t P (first_rd o k t).
Proof.
  destruct t eqn:Et; cbn [first_rd].
  - apply outs_more. intros n Hn. cbn [rstep]. pose proof Hn as (HT & _ & _ & LC & _).
    destruct (idx_cases (n_children n) 0) as [(_ & c & _ & E)|(L & _)]; [|lia]. rewrite E. apply (K _ _ Hn). unfold firstChild. now rewrite HT.
  - apply outs_more. intros n Hn. cbn [rstep]. pose proof Hn as (HT & _ & _ & LC & _).
    destruct (idx_cases (n_children n) 0) as [(_ & c & _ & E)|(L & _)]; [|lia]. rewrite E. apply (K _ _ Hn). unfold firstChild. now rewrite HT.
  - assert (X : forall f i, f + i = 256 -> outs Node48 P (first48_rd o k f i)).
    { induction f as [|f IH]; intros i Hi; cbn [first48_rd].
      - apply outs_done. apply (C _ (shape_blank Node48)). intros x. unfold blank, firstChild. cbn [n_type newNode48].
        assert (Y : first48_loop newNode48 256 0 = Panic) by (vm_compute; reflexivity). rewrite Y. discriminate.
      - apply outs_more. intros n Hn. cbn [rstep]. pose proof Hn as (HT & _ & LI & LC & F & _).
        destruct (idx_cases (n_index n) i) as [(_ & ix & E1 & E)|(L & _)]; [|lia]. rewrite E. cbn [orc].
        destruct (Nat.eqb_spec ix 0) as [E0|E0]; [apply IH; lia|]. apply outs_more. intros n2 Hn2. cbn [rstep]. pose proof Hn2 as (_ & _ & _ & LC2 & _).
        assert (B48 : ix <= 48). { rewrite Forall_forall in F. apply F. eapply nth_error_In; eauto. }
        destruct (idx_cases (n_children n2) (ix - 1)) as [(_ & c & _ & E2)|(L & _)]; [|lia]. rewrite E2. cbn [orc].
        exact (K _ _ (shape_one48 c) eq_refl). }
    apply X. lia.
  - assert (X : forall f i, f + i = 256 -> outs Node256 P (first256_rd o k f i)).
    { induction f as [|f IH]; intros i Hi; cbn [first256_rd].
      - apply outs_done. apply (C _ (shape_blank Node256)). intros x. unfold blank, firstChild. cbn [n_type newNode256].
        assert (Y : first256_loop newNode256 256 0 = Panic) by (vm_compute; reflexivity). rewrite Y. discriminate.
      - apply outs_more. intros n Hn. cbn [rstep]. pose proof Hn as (HT & _ & LC & _).
        destruct (idx_cases (n_children n) i) as [(_ & c & _ & E2)|(L & _)]; [|lia]. rewrite E2. cbn [orc].
        destruct c as [c|]; [|apply IH; lia]. exact (K _ _ (shape_one256 (Some c)) eq_refl). }
    apply X. lia.
  - apply outs_done. apply (C _ (shape_blank Dummy)). discriminate.
Qed.
End First.

Lemma miss_skip pre key d f j : (forall x, j <= x < j + d -> exists y, nth_error pre x = Some y /\ nth_error key x = Some y) ->
  miss_loop pre key (d + f) j = miss_loop pre key f (j + d).
Proof.
  revert j. induction d as [|d IH]; intros j H; [now rewrite Nat.add_0_r|]. cbn [Nat.add miss_loop].
  destruct (H j ltac:(lia)) as (y & E1 & E2). rewrite (idx_Some _ _ _ E1), (idx_Some _ _ _ E2). cbn [bind]. rewrite Nat.eqb_refl.
  rewrite IH by (intros x Hx; apply H; lia). f_equal; lia.
Qed.

Section Miss.
Context (o : op) (t : ntype) (P : pc -> Prop) (key : bytes) (k : nat -> rd) (fuel : nat).
Context (K : forall i pre, length pre = 8 -> miss_loop pre key fuel 0 = Ok i -> outs t P (k i)).
Context (C : forall pre, length pre = 8 -> (forall x, miss_loop pre key fuel 0 <> Ok x) -> P (PCrash o)).

Lemma nth_pre i (r : bytes) x : x < i -> i <= length key -> exists y, nth_error (firstn i key ++ r) x = Some y /\ nth_error key x = Some y.
Proof.
  intros H1 H2. destruct (nth_error key x) as [y|] eqn:E. 2: { apply nth_error_None in E. lia. }
  exists y. split; auto. rewrite nth_error_app1 by (rewrite firstn_length; lia). rewrite <- E. clear -H1.
  revert i H1. generalize key. induction x as [|x IH]; intros [|y l] [|i] H; try lia; cbn; auto. apply IH. lia.
Qed.

Lemma miss_outs : fuel <= length key -> outs t P (miss_rd o key k fuel 0).
Proof.
  intros HF. enough (X : forall f i, i <= 8 -> f + i = fuel -> outs t P (miss_rd o key k f i)) by (apply X; lia).
  induction f as [|f IH]; intros i H8 Hf; cbn [miss_rd].
  - apply (K i (firstn i key ++ repeat 0 (8 - i))).
    + rewrite app_length, firstn_length, repeat_length. lia.
    + replace fuel with (i + 0) by lia. rewrite miss_skip; [reflexivity|]. intros x Hx. apply nth_pre; lia.
  - apply outs_more. intros n Hn. cbn [rstep]. pose proof Hn as (_ & L8 & _).
    destruct (idx_cases (n_prefix n) i) as [(L & x & _ & E)|(L & E)]; rewrite E; cbn [orc].
    + destruct (nth_error key i) as [y|] eqn:Ey. 2: { apply nth_error_None in Ey. lia. }
      rewrite (idx_Some _ _ _ Ey). cbn [orc]. destruct (Nat.eqb x y); [apply IH; lia|].
      apply (K i (firstn i key ++ S y :: repeat 0 (7 - i))).
      * rewrite app_length, firstn_length. cbn [length]. rewrite repeat_length. lia.
      * replace fuel with (i + S f) by lia. rewrite miss_skip by (intros z Hz; apply nth_pre; lia). cbn [miss_loop Nat.add].
        unfold idx at 1. rewrite nth_error_app2 by (rewrite firstn_length; lia). rewrite firstn_length, Nat.min_l, Nat.sub_diag by lia.
        cbn [nth_error bind]. rewrite (idx_Some _ _ _ Ey). cbn [bind]. now rewrite (proj2 (Nat.eqb_neq (S y) y)) by lia.
    + apply outs_done. assert (i = 8) by lia. subst i. apply (C (firstn 8 key ++ [])).
      * rewrite app_nil_r, firstn_length. lia.
      * intros x. replace fuel with (8 + S f) by lia. rewrite miss_skip by (intros z Hz; apply nth_pre; lia). cbn [miss_loop Nat.add].
        rewrite idx_out by (rewrite app_nil_r, firstn_length; lia). discriminate.
Qed.
End Miss.

(** ** All groups of reads *)
Ltac rd1 n Hn := apply outs_more; intros n Hn; cbn [rstep].
Ltac fin_to nd := apply outs_done; exists nd; split; [|let first := fresh in let m := fresh in let HP := fresh "HP" in let HE := fresh "HE" in intros first m HP HE; cbn [tstep]].

Lemma res_ok {A} (x : res A) : (exists a, x = Ok a) \/ (forall a, x <> Ok a).
Proof. destruct x as [a| |]; [left; eauto|right; discriminate|right; discriminate]. Qed.
Lemma lift_bad {A} m o (x : res A) k : (forall a, x <> Ok a) -> lift m o x k = SGo m (PCrash o).
Proof. destruct x as [a| |]; auto. intros H. now destruct (H a). Qed.
Lemma par_get m f : (exists c, cell_at m (f_par f) = Some c) -> exists n, get_node m (f_par f) = Ok n.
Proof. intros (c & H). rewrite (get_node_ok _ _ _ H). eauto. Qed.

Theorem rprog_outs t pt p : reads p <> None -> outs t (fun p' => exists nd, shape t nd /\ to pt p nd p') (rprog t pt p).
Proof.
  intros HR.
  assert (FO : forall o f v d b, idx (op_key o) d = Ok b ->
    forall q, (forall nd x, findChild nd b = Ok x -> to pt q nd (let '(next, slot, pos) := x in PNext o f v d next slot pos)) ->
    (forall nd, (forall x, findChild nd b <> Ok x) -> to pt q nd (PCrash o)) ->
    outs t (fun p' => exists nd, shape t nd /\ to pt q nd p') (find_rd o b (fun '(next, slot, pos) => RDone (PNext o f v d next slot pos)) t)).
  { intros o f v d b Hb q H1 H2. apply find_outs.
    - intros ((next, slot), pos) nd S1 S2. apply outs_done. exists nd. split; auto. exact (H1 _ _ S2).
    - intros nd S1 S2. exists nd. split; auto. }
  destruct p; try (now destruct HR); cbn [rprog].
  - (* PRead0 *) rd1 n Hn. fin_to n; auto.
  - (* PRead1 *) rd1 n Hn. destruct (Nat.ltb (length (op_key o)) (f_depth f + n_plen n)) eqn:E.
    + fin_to n; auto. unfold checkPrefix_rest. rewrite E. reflexivity.
    + rd1 n2 Hn2. destruct (res_ok (kp <- slice (op_key o) (f_depth f) (f_depth f + n_plen n);; copy_at (zeros 8) 0 kp)) as [(kb & Ek)|Ek].
      * rewrite Ek. cbn [orc]. fin_to (set_plen n2 (n_plen n)); [now apply shape_plen|].
        unfold checkPrefix_rest. cbn [set_plen n_plen n_prefix]. rewrite E. destruct (slice (op_key o) _ _) as [kp| |]; cbn [bind] in *; try discriminate.
        rewrite Ek. cbn [bind lift]. destruct (beqb kb (n_prefix n2)); reflexivity.
      * assert (Z : outs t (fun p' => exists nd, shape t nd /\ to pt (PRead1 o f v) nd p') (RDone (PCrash o))).
        { fin_to (set_plen n2 (n_plen n)); [now apply shape_plen|]. apply lift_bad. intros a. unfold checkPrefix_rest. cbn [set_plen n_plen n_prefix]. rewrite E.
          destruct (slice (op_key o) _ _) as [kp| |]; cbn [bind] in *; try discriminate. destruct (copy_at (zeros 8) 0 kp) as [x| |]; cbn [bind]; try discriminate. now destruct (Ek x). }
        destruct (kp <- slice (op_key o) (f_depth f) (f_depth f + n_plen n);; copy_at (zeros 8) 0 kp) as [x| |]; cbn [orc]; auto. now destruct (Ek x).
  - (* PRead2 *) destruct (Nat.eqb d (length (op_key o))) eqn:E1.
    + rd1 n Hn. fin_to n; auto. rewrite E1. destruct o; reflexivity.
    + destruct (Nat.ltb d (length (op_key o))) eqn:E2.
      * destruct (idx_cases (op_key o) d) as [(_ & b & _ & Eb)|(L & _)]; [|apply Nat.ltb_lt in E2; lia]. rewrite Eb. cbn [orc].
        apply FO; auto.
        -- intros nd ((next, slot), pos) S2 first m _ _. cbn [tstep]. rewrite E1, E2, Eb. cbn [lift]. rewrite S2. reflexivity.
        -- intros nd S2 first m _ _. cbn [tstep]. rewrite E1, E2, Eb. cbn [lift]. now apply lift_bad.
      * fin_to (blank t); [apply shape_blank|]. rewrite E1, E2. destruct o; reflexivity.
  - (* IMis *) rd1 n Hn. fin_to n; auto.
  - (* IMis1 *) rd1 n Hn. unfold slice_from. destruct (Nat.leb (f_depth f) (length (op_key o))) eqn:E; cbn [orc].
    + apply miss_outs.
      * intros i pre L8 ML. fin_to (set_plen (set_prefix (blank t) pre) (n_plen n)); [apply shape_plen, shape_prefix; auto; apply shape_blank|].
        unfold slice_from. rewrite E. cbn [bind set_plen set_prefix n_plen n_prefix]. rewrite ML. reflexivity.
      * intros pre L8 ML. exists (set_plen (set_prefix (blank t) pre) (n_plen n)). split; [apply shape_plen, shape_prefix; auto; apply shape_blank|].
        intros first m _ _. cbn [tstep]. unfold slice_from. rewrite E. cbn [bind set_plen set_prefix n_plen n_prefix]. now apply lift_bad.
      * apply Nat.leb_le in E. rewrite skipn_length. lia.
    + fin_to n; auto. unfold slice_from. rewrite E. reflexivity.
  - (* FRd *) rd1 n Hn. destruct (n_pleaf n) as [l|] eqn:El.
    + rd1 n2 Hn2. fin_to (set_pleaf n2 (Some (match n_pleaf n2 with Some l => l | None => [] end))); [now apply shape_pleaf|]. reflexivity.
    + apply first_outs.
      * intros x0 nd S1 S2. fin_to (set_pleaf nd None); [now apply shape_pleaf|]. cbn [set_pleaf n_pleaf].
        change (firstChild (set_pleaf nd None)) with (firstChild nd). rewrite S2. reflexivity.
      * intros nd S1 S2. exists (set_pleaf nd None). split; [now apply shape_pleaf|]. intros first m _ _. cbn [tstep set_pleaf n_pleaf].
        apply lift_bad. exact S2.
  - (* IMis2 *) rd1 n Hn. destruct (res_ok (miss_loop (op_key o) fk (Nat.min (length (op_key o)) (f_depth f + n_plen n) - f_depth f) (f_depth f))) as [(i & E)|E].
    + rewrite E. cbn [orc]. fin_to n; auto. rewrite E. reflexivity.
    + assert (Z : outs t (fun p' => exists nd, shape t nd /\ to pt (IMis2 o f v fk) nd p') (RDone (PCrash o))).
      { fin_to n; auto. now apply lift_bad. }
      destruct (miss_loop _ _ _ _) as [x| |]; cbn [orc]; auto. now destruct (E x).
  - (* IPl *) rd1 n Hn. fin_to n; auto.
  - (* IDep *) rd1 n Hn. fin_to n; auto. destruct (Nat.eqb _ _); [reflexivity|]. destruct (Nat.ltb _ _); reflexivity.
  - (* IFind *) destruct (idx_cases (op_key o) d) as [(_ & b & _ & Eb)|(L & Eb)]; rewrite Eb; cbn [orc].
    + apply FO; auto.
      * intros nd ((next, slot), pos) S2 first m _ _. cbn [tstep]. rewrite Eb. cbn [lift]. rewrite S2. reflexivity.
      * intros nd S2 first m _ _. cbn [tstep]. rewrite Eb. cbn [lift]. now apply lift_bad.
    + fin_to (blank t); [apply shape_blank|]. rewrite Eb. reflexivity.
  - (* IFull *) destruct t.
    1-3: rd1 n Hn; fin_to n; auto; unfold isFull; rewrite (shape_type _ _ Hn); reflexivity.
    + fin_to (blank Node256); [apply shape_blank|]. reflexivity.
    + fin_to (blank Dummy); [apply shape_blank|]. reflexivity.
  - (* DCmp *) assert (NC : forall b nd, shape t nd -> shouldCompress nd pt = b ->
       outs t (fun p' => exists nd, shape t nd /\ to pt (DCmp o f v) nd p') (RDone (if b then LPar o f v MCompress else LCur1 o f v MClear))).
    { intros b nd S1 S2. fin_to nd; auto. cbn [par_ok ptype] in *. destruct (par_get _ _ HP) as (pn & E). rewrite E in *. cbn [lift]. rewrite HE, S2. reflexivity. }
    destruct t.
    + rd1 n Hn. apply (NC _ n Hn). unfold shouldCompress. now rewrite (shape_type _ _ Hn).
    + apply (NC false _ (shape_blank Node16)). reflexivity.
    + apply (NC false _ (shape_blank Node48)). reflexivity.
    + apply (NC false _ (shape_blank Node256)). reflexivity.
    + apply (NC false _ (shape_blank Dummy)). reflexivity.
  - (* DShr *) assert (NC : forall b nd, shape t nd -> shouldShrink nd pt = Ok b ->
       outs t (fun p' => exists nd, shape t nd /\ to pt (DShr o f v d pos) nd p') (RDone (if b then LPar o f v (MShrink d) else LCur1 o f v (MRem pos)))).
    { intros b nd S1 S2. fin_to nd; auto. cbn [par_ok ptype] in *. destruct (par_get _ _ HP) as (pn & E). rewrite E in *. cbn [lift]. rewrite HE, S2. reflexivity. }
    destruct t.
    + destruct (ntype_eqb pt Dummy) eqn:ED.
      * apply (NC false _ (shape_blank Node4)). unfold shouldShrink. cbn [blank newNode4 n_type]. now rewrite ED.
      * rd1 n Hn. rd1 n2 Hn2. apply (NC _ (set_pleaf n2 (n_pleaf n)) Hn2). unfold shouldShrink. cbn [set_pleaf n_type n_pleaf n_num].
        rewrite (shape_type _ _ Hn2), ED. now destruct (n_pleaf n).
    + rd1 n Hn. apply (NC _ n Hn). unfold shouldShrink. now rewrite (shape_type _ _ Hn).
    + rd1 n Hn. apply (NC _ n Hn). unfold shouldShrink. now rewrite (shape_type _ _ Hn).
    + rd1 n Hn. destruct (Nat.ltb 0 (n_num n)) eqn:E0.
      * rd1 n2 Hn2. destruct (Nat.leb (n_num n2) node256MinSize).
        -- apply (NC true (set_num newNode256 1)); [apply shape_set_num; [apply (shape_blank Node256)|cbn; lia]|reflexivity].
        -- apply (NC false _ (shape_blank Node256)). reflexivity.
      * apply (NC false n Hn). unfold shouldShrink. now rewrite (shape_type _ _ Hn), E0.
    + fin_to (blank Dummy); [apply shape_blank|]. cbn [par_ok] in HP. destruct (par_get _ _ HP) as (pn & E). rewrite E. reflexivity.
Qed.

Theorem rprog_eval t pt p n : reads p <> None -> shape t n -> to pt p n (eval n (rprog t pt p)).
Proof.
  intros HR Hn first m HP HE. pose proof (shape_type _ _ Hn) as HT.
  destruct p; try (now destruct HR); cbn [rprog tstep]; cbn [par_ok ptype] in *.
  - reflexivity.
  - cbn [eval]. unfold checkPrefix_rest. destruct (Nat.ltb _ _); [reflexivity|]. cbn [eval]. destruct (slice (op_key o) _ _) as [kp| |]; cbn [bind orc lift eval]; try reflexivity.
    all: destruct (copy_at _ 0 kp) as [kb| |]; cbn [bind orc lift eval]; try reflexivity; destruct (beqb kb (n_prefix n)); reflexivity.
  - destruct (Nat.eqb _ _); [destruct o; reflexivity|]. destruct (Nat.ltb _ _); [|destruct o; reflexivity].
    destruct (idx (op_key o) d) as [b| |]; cbn [orc lift eval]; auto. rewrite (find_eval o n _ _ t Hn). destruct (findChild n b) as [((x, y), z)| |]; reflexivity.
  - reflexivity.
  - cbn [eval]. destruct (slice_from _ _) as [kr| |]; cbn [bind orc lift eval]; auto. rewrite miss_eval. destruct (miss_loop _ _ _ _); reflexivity.
  - cbn [eval]. destruct (n_pleaf n) as [l|] eqn:El; cbn [eval]; [now rewrite El|]. rewrite (first_eval o n _ t HT). destruct (firstChild n); reflexivity.
  - cbn [eval]. destruct (miss_loop _ _ _ _); reflexivity.
  - reflexivity.
  - cbn [eval]. destruct (Nat.eqb _ _); [reflexivity|]. destruct (Nat.ltb _ _); reflexivity.
  - destruct (idx (op_key o) d) as [b| |]; cbn [orc lift eval]; auto. rewrite (find_eval o n _ _ t Hn). destruct (findChild n b) as [((x, y), z)| |]; reflexivity.
  - unfold isFull. rewrite HT. destruct t; reflexivity.
  - destruct (par_get _ _ HP) as (pn & E). rewrite E in *. cbn [lift]. unfold shouldCompress. rewrite HT, HE. destruct t; reflexivity.
  - destruct (par_get _ _ HP) as (pn & E). rewrite E in *. cbn [lift]. unfold shouldShrink. rewrite HT, HE. destruct t; try reflexivity.
    + destruct (ntype_eqb pt Dummy); [reflexivity|]. cbn [eval]. destruct (n_pleaf n); reflexivity.
    + cbn [eval]. destruct (Nat.ltb 0 (n_num n)); reflexivity.
Qed.
