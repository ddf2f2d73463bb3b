(** * ArtFineWrite: the single stores of a critical section add up to the change ArtConc
    makes in one step. *)
From Verif Require Import Base BitsModel BitsFacts VecModel VecProofs VecProofs2 ArtNode
  ArtNodeProofs ArtNodeProofs2 ArtNodeProofs3 ArtModel ArtSpec ArtTree ArtTree2 ArtRep ArtRep2
  ArtTree3 ArtSeq ArtMono ArtSeq2 ArtSeq3 ArtConc ArtConcHeap ArtConcInv ArtConcStep ArtFine ArtFineRead.
Ltac Zify.zify_post_hook ::= Z.div_mod_to_equations.

(** ** Lists *)
Lemma set_nth_same {A} (l : list A) i x : nth_error l i = Some x -> set_nth l i x = l.
Proof. revert i. induction l as [|y l IH]; intros [|i] H; cbn in *; try discriminate; [now inversion H|]. now rewrite IH. Qed.
Lemma set_nth_twice {A} (l : list A) i x y : set_nth (set_nth l i x) i y = set_nth l i y.
Proof. revert i. induction l as [|z l IH]; intros [|i]; cbn; auto. now rewrite IH. Qed.
Lemma nth_error_ext {A} (l l' : list A) : (forall i, nth_error l i = nth_error l' i) -> l = l'.
Proof.
  revert l'. induction l as [|x l IH]; intros [|y l'] H; auto; try (specialize (H 0); discriminate).
  pose proof (H 0) as H0. cbn in H0. injection H0 as ->. f_equal. apply IH. intros i. exact (H (S i)).
Qed.
Definition moves {A} (l : list A) (g : nat -> A) (js : list nat) : list A := fold_left (fun l j => set_nth l j (g j)) js l.
Lemma moves_length {A} (l : list A) g js : length (moves l g js) = length l.
Proof. revert l. unfold moves. induction js as [|j js IH]; intros l; cbn [fold_left]; auto. rewrite IH. apply set_nth_length. Qed.
Lemma nth_moves {A} (g : nat -> A) k i l x : nth_error (moves l g (seq i k)) x =
  if Nat.leb i x && Nat.ltb x (i + k) && Nat.ltb x (length l) then Some (g x) else nth_error l x.
Proof.
  revert i l. unfold moves. induction k as [|k IH]; intros i l; cbn [seq fold_left].
  - replace (Nat.leb i x && Nat.ltb x (i + 0)) with false by lia. reflexivity.
  - rewrite IH, set_nth_length, nth_error_set_nth. destruct (Nat.eqb_spec i x) as [->|N].
    + replace (Nat.leb (S x) x) with false by lia. cbn [andb]. replace (Nat.leb x x) with true by lia. replace (Nat.ltb x (x + S k)) with true by lia.
      cbn [andb]. destruct (Nat.ltb_spec x (length l)) as [L|L]; auto. symmetry. now apply nth_error_None.
    + replace (Nat.leb (S i) x && Nat.ltb x (S i + k)) with (Nat.leb i x && Nat.ltb x (i + S k)) by lia. reflexivity.
Qed.
Lemma moves_all {A} (l y : list A) d : length y = length l -> moves l (fun i => nth i y d) (seq 0 (length l)) = y.
Proof.
  intros H. apply nth_error_ext. intros i. rewrite nth_moves. cbn [Nat.leb andb]. destruct (Nat.ltb_spec i (length l)) as [L|L].
  - rewrite (proj2 (Nat.ltb_lt i (0 + length l))) by lia. cbn [andb]. symmetry. apply nth_error_nth'. lia.
  - rewrite andb_false_r. rewrite (proj2 (nth_error_None l i)) by lia. symmetry. apply nth_error_None. lia.
Qed.

(** ** Stores *)
Definition awr (m : mem) (x : nat * fw) : mem :=
  match cell_at m (fst x) with Some c => upd_cell m (fst x) (mkCell (c_ver c) (wr (c_node c) (snd x))) | None => m end.
Definition awrs (m : mem) (ws : list (nat * fw)) : mem := fold_left awr ws m.
Definition wrs (a : nat) (ws : list (nat * fw)) (n : node) : node :=
  fold_left (fun n x => if Nat.eqb (fst x) a then wr n (snd x) else n) ws n.

Lemma mlen_awr m x : mlen (awr m x) = mlen m.
Proof. unfold awr. destruct (cell_at m (fst x)); auto. apply mlen_upd. Qed.
Lemma mlen_awrs m ws : mlen (awrs m ws) = mlen m.
Proof. revert m. induction ws as [|x ws IH]; intros m; cbn; auto. unfold awrs in IH. now rewrite IH, mlen_awr. Qed.
Lemma root_awr m x : m_root (awr m x) = m_root m.
Proof. unfold awr. now destruct (cell_at m (fst x)). Qed.
Lemma root_awrs m ws : m_root (awrs m ws) = m_root m.
Proof. revert m. induction ws as [|x ws IH]; intros m; cbn; auto. unfold awrs in IH. now rewrite IH, root_awr. Qed.
Lemma cell_awr m x a : cell_at (awr m x) a =
  if Nat.eqb (fst x) a then option_map (fun c => mkCell (c_ver c) (wr (c_node c) (snd x))) (cell_at m a) else cell_at m a.
Proof.
  unfold awr. destruct (Nat.eqb_spec (fst x) a) as [<-|N].
  - destruct (cell_at m (fst x)) as [c|] eqn:E; cbn [option_map]; auto. rewrite cell_upd by (eapply cell_lt; eauto). now rewrite Nat.eqb_refl.
  - destruct (cell_at m (fst x)) as [c|] eqn:E; auto. rewrite cell_upd by (eapply cell_lt; eauto). now rewrite (proj2 (Nat.eqb_neq _ _) N).
Qed.
Lemma cell_awrs m ws a : cell_at (awrs m ws) a = option_map (fun c => mkCell (c_ver c) (wrs a ws (c_node c))) (cell_at m a).
Proof.
  revert m. unfold awrs, wrs. induction ws as [|x ws IH]; intros m; cbn [fold_left].
  - destruct (cell_at m a) as [[v n]|]; reflexivity.
  - rewrite IH, cell_awr. destruct (Nat.eqb (fst x) a); [|reflexivity]. destruct (cell_at m a); reflexivity.
Qed.
Lemma wrs_app a ws ws' n : wrs a (ws ++ ws') n = wrs a ws' (wrs a ws n).
Proof. unfold wrs. apply fold_left_app. Qed.
Lemma awrs_app m ws ws' : awrs m (ws ++ ws') = awrs (awrs m ws) ws'.
Proof. unfold awrs. apply fold_left_app. Qed.
Lemma mem_eta m : mkMem (m_cells m) (m_root m) = m.
Proof. now destruct m. Qed.
Lemma awrs_on m a c ws : cell_at m a = Some c -> awrs m (on a ws) = upd_cell m a (mkCell (c_ver c) (fold_left wr ws (c_node c))).
Proof.
  revert m c. unfold awrs, on. induction ws as [|w ws IH]; intros m c H; cbn [map fold_left].
  - unfold upd_cell. rewrite set_nth_same; [symmetry; apply mem_eta|]. unfold cell_at in H. destruct c; exact H.
  - rewrite (IH _ (mkCell (c_ver c) (wr (c_node c) w))).
    + cbn [c_ver c_node]. unfold awr. cbn [fst snd]. rewrite H. unfold upd_cell. cbn [m_cells m_root]. now rewrite set_nth_twice.
    + rewrite cell_awr. cbn [fst snd]. now rewrite Nat.eqb_refl, H.
Qed.

(** Where the last store of a critical section goes. *)
Definition fin_at (f : frame) (mu : mut) (fn : fin) : Prop :=
  match fn with
  | FNone => True
  | FStore l _ | FPlace l _ => (two mu = true /\ l = f_loc f) \/ exists i, l = LSlot (f_cur f) i
  | FUnl _ _ => False
  end.
Definition run_fin (fn : fin) (m : mem) : res mem :=
  match fn with
  | FNone => Ok m
  | FStore l q => store m l q
  | FPlace l nn => place m l nn
  | FUnl c l => store m l (PNode c)
  end.

(** ** Shapes *)
Definition wok (t : ntype) (w : fw) : Prop :=
  match w with WNum x => num_ok t x | WIdx _ x => x <= 48 | _ => True end.
Lemma wr_shape t n w : shape t n -> wok t w -> shape t (wr n w).
Proof.
  intros H W. pose proof H as (H1 & H2 & H3). destruct w; cbn [wr wok] in *.
  - now apply shape_set_num.
  - exact H.
  - exact H.
  - apply shape_prefix; auto. now rewrite set_nth_length.
  - split; [exact H1|]. split; [exact H2|]. destruct t; cbn; rewrite ?set_nth_length; exact H3.
  - split; [exact H1|]. split; [exact H2|]. destruct t; cbn; rewrite ?set_nth_length; exact H3.
  - split; [exact H1|]. split; [exact H2|]. destruct t; cbn; rewrite ?set_nth_length; try exact H3.
    destruct H3 as (L1 & L2 & L3 & L4). split; auto. split; auto. split; auto. now apply Forall_set_nth.
  - exact H.
Qed.
Lemma wr_type n w : n_type (wr n w) = n_type n.
Proof. now destruct w. Qed.
Lemma wrs_type a ws n : n_type (wrs a ws n) = n_type n.
Proof. revert n. unfold wrs. induction ws as [|x ws IH]; intros n; cbn [fold_left]; auto. rewrite IH. destruct (Nat.eqb (fst x) a); auto. apply wr_type. Qed.

Lemma rep_shape b n a : nrep b n a -> shape (n_type n) n.
Proof.
  intros R. pose proof (nr_layout _ _ _ R) as (LN & LC & L). split; [reflexivity|]. split.
  { rewrite (nr_prefix _ _ _ R). unfold stored. apply pad8_length. }
  destruct (n_type n) eqn:Et; cbn [cap] in *.
  - pose proof (so_klen n L) as X1. pose proof (so_clen n L) as X2. pose proof (so_num n L) as X3. rewrite Et in *. auto.
  - pose proof (so_klen n L) as X1. pose proof (so_clen n L) as X2. pose proof (so_num n L) as X3. rewrite Et in *. auto.
  - split; [exact (o48_ilen n L)|]. split; [exact (o48_clen n L)|]. split; [|rewrite LN; lia].
    apply Forall_forall. intros x X. apply In_nth_error in X as (i & Hi). destruct x as [|p]; [lia|].
    destruct (o48_used n L i p) as (X & _); [now apply nth_error_nth with (d := 0) in Hi|]. lia.
  - split; [exact L|]. rewrite LN. lia.
  - contradiction.
Qed.

(** ** The stores of each kind *)
Lemma fold_pre n x js : fold_left wr (map (fun i => WPre i (nth i x 0)) js) n = set_prefix n (moves (n_prefix n) (fun i => nth i x 0) js).
Proof. revert n. unfold moves. induction js as [|j js IH]; intros n; cbn [map fold_left]; [now destruct n|]. rewrite IH. reflexivity. Qed.
Lemma fold_pre_writes n x : length x = 8 -> length (n_prefix n) = 8 -> fold_left wr (pre_writes x) n = set_prefix n x.
Proof. intros H1 H2. unfold pre_writes. rewrite fold_pre. f_equal. rewrite <- H2. apply moves_all. congruence. Qed.
Lemma fold_keys n x js : fold_left wr (map (fun j => WKey j (x j)) js) n = set_keys n (moves (n_keys n) x js).
Proof. revert n. unfold moves. induction js as [|j js IH]; intros n; cbn [map fold_left]; [now destruct n|]. rewrite IH. reflexivity. Qed.
Lemma fold_children n x js : fold_left wr (map (fun j => WChild j (x j)) js) n = set_children n (moves (n_children n) x js).
Proof. revert n. unfold moves. induction js as [|j js IH]; intros n; cbn [map fold_left]; [now destruct n|]. rewrite IH. reflexivity. Qed.

Lemma upd_inv {A} (l : list A) i x l' : upd l i x = Ok l' -> i < length l /\ l' = set_nth l i x.
Proof. unfold upd. destruct (Nat.ltb_spec i (length l)); [|discriminate]. intros X. apply Ok_inj in X. auto. Qed.
Lemma bind_inv {A B} (x : res A) (k : A -> res B) y : (a <- x ;; k a) = Ok y -> exists a, x = Ok a /\ k a = Ok y.
Proof. destruct x as [a| |]; cbn [bind]; try discriminate. eauto. Qed.

Lemma fold_ins n b ch n' : insertChild n b ch = Ok n' -> fold_left wr (ins_writes n b ch) n = n'.
Proof.
  unfold insertChild, ins_writes. destruct (n_type n) eqn:Et; intros H; try discriminate.
  1-2: unfold insertChild_small in H; apply bind_inv in H as (ks & E1 & H); apply bind_inv in H as (cs & E2 & H);
    apply Ok_inj in H; apply upd_inv in E1 as (_ & ->); apply upd_inv in E2 as (_ & ->); subst n'; reflexivity.
  - unfold insertChild48 in H. unfold allocSlot in H |- *. cbn [fst snd n_slots set_slots n_children n_index n_num] in *.
    apply bind_inv in H as (cs & E1 & H). apply bind_inv in H as (ix & E2 & H).
    apply Ok_inj in H; apply upd_inv in E1 as (_ & ->); apply upd_inv in E2 as (_ & ->); subst n'; reflexivity.
  - unfold insertChild256 in H. apply bind_inv in H as (cs & E1 & H). apply Ok_inj in H; apply upd_inv in E1 as (_ & ->); subst n'; reflexivity.
Qed.

Lemma copy_shift {A} (l t cs : list A) i d : slice_from l (i + 1) = Ok t -> copy_at l i t = Ok cs ->
  moves l (fun j => nth (j + 1) l d) (seq i (length l - (i + 1))) = cs.
Proof.
  unfold slice_from, copy_at. destruct (Nat.leb_spec (i + 1) (length l)) as [L|]; [|discriminate]. intros X. apply Ok_inj in X. subst t.
  rewrite (proj2 (Nat.leb_le i (length l))) by lia. intros X. apply Ok_inj in X. subst cs.
  rewrite skipn_length. replace (Nat.min (length l - i) (length l - (i + 1))) with (length l - (i + 1)) by lia.
  rewrite (firstn_all2 (skipn (i + 1) l)) by (rewrite skipn_length; lia). apply nth_error_ext. intros x. rewrite nth_moves.
  destruct (Nat.lt_ge_cases x i) as [L1|L1].
  - rewrite (proj2 (Nat.leb_gt i x)) by lia. cbn [andb]. rewrite nth_error_app1 by (rewrite firstn_length; lia).
    clear -L1. revert i L1. generalize l. induction x as [|x IH]; intros [|y q] [|i] H; try lia; cbn; auto. apply IH. lia.
  - rewrite (proj2 (Nat.leb_le i x)) by lia. cbn [andb]. rewrite nth_error_app2 by (rewrite firstn_length; lia).
    rewrite firstn_length, Nat.min_l by lia. destruct (Nat.ltb_spec x (i + (length l - (i + 1)))) as [L2|L2].
    + rewrite (proj2 (Nat.ltb_lt x (length l))) by lia. cbn [andb]. rewrite nth_error_app1 by (rewrite skipn_length; lia).
      rewrite skipn_nth_error. replace (i + 1 + (x - i)) with (x + 1) by lia. symmetry. apply nth_error_nth'. lia.
    + cbn [andb]. rewrite nth_error_app2 by (rewrite skipn_length; lia). rewrite skipn_nth_error, skipn_length. f_equal. lia.
Qed.

Lemma fold_rem n i n' : removeChild n i = Ok n' -> fold_left wr (rem_writes n i) n = n'.
Proof.
  unfold removeChild, rem_writes. destruct (n_type n) eqn:Et; intros H.
  1-2: apply bind_inv in H as (kt & E1 & H); apply bind_inv in H as (ks & E2 & H); apply bind_inv in H as (ct & E3 & H);
    apply bind_inv in H as (cs & E4 & H); apply bind_inv in H as (cs' & E5 & H); apply Ok_inj in H;
    rewrite !fold_left_app; rewrite fold_keys, (copy_shift _ _ _ _ _ E1 E2); rewrite fold_children; cbn [set_keys n_children];
    rewrite (copy_shift _ _ _ _ _ E3 E4); apply upd_inv in E5 as (_ & ->); subst n'; reflexivity.
  - apply bind_inv in H as (ix & E1 & H). destruct (Nat.eqb_spec ix 0); [discriminate|].
    apply bind_inv in H as (ixs & E2 & H). apply bind_inv in H as (cs & E3 & H). apply Ok_inj in H.
    apply upd_inv in E2 as (_ & ->); apply upd_inv in E3 as (_ & ->). apply idx_Ok in E1.
    rewrite (nth_error_nth _ _ 0 E1). subst n'; reflexivity.
  - apply bind_inv in H as (cs & E1 & H). apply Ok_inj in H. apply upd_inv in E1 as (_ & ->). subst n'; reflexivity.
  - apply Ok_inj in H. subst; reflexivity.
Qed.

Lemma copy_at_length {A} (d s x : list A) i : copy_at d i s = Ok x -> length x = length d.
Proof.
  unfold copy_at. destruct (Nat.leb_spec i (length d)); [|discriminate]. intros X. apply Ok_inj in X. subst x.
  rewrite !app_length, !firstn_length, skipn_length. lia.
Qed.

Lemma split_form a n key fk value d p n' nn : insertSplitPrefix a n key fk value d p = Ok (n', nn) ->
  length (n_prefix n') = 8 /\ n' = set_prefix (set_plen n (n_plen n')) (n_prefix n').
Proof.
  unfold insertSplitPrefix. intros H. apply bind_inv in H as (nn0 & _ & H). apply bind_inv in H as (px & _ & H).
  apply bind_inv in H as (((pos, plen), tmp) & E & H). apply bind_inv in H as (nn3 & _ & H). apply Ok_inj in H. injection H as <- _.
  cbn [n_plen set_prefix set_plen n_prefix]. split; [|reflexivity].
  destruct (Nat.leb (n_plen n) maxPrefixLen).
  - apply bind_inv in E as (x1 & _ & E). apply bind_inv in E as (x2 & _ & E). apply bind_inv in E as (x3 & E3 & E). apply Ok_inj in E. injection E as _ _ <-.
    apply copy_at_length in E3. exact E3.
  - apply bind_inv in E as (x1 & _ & E). apply bind_inv in E as (x2 & _ & E). apply bind_inv in E as (x3 & E3 & E). apply Ok_inj in E. injection E as _ _ <-.
    apply copy_at_length in E3. exact E3.
Qed.

Lemma merge_form n child i pre tmp plen : mergePrefix n child i = Ok (pre, tmp, plen) -> length (n_prefix n) = 8 ->
  length pre = 8 /\ length tmp = 8.
Proof.
  unfold mergePrefix. intros H L. apply bind_inv in H as ((p1, pl) & E1 & H). apply bind_inv in H as ((p2, pl2) & E2 & H).
  apply bind_inv in H as (src & _ & H). apply bind_inv in H as (t & E3 & H). apply Ok_inj in H. injection H as <- <- _.
  apply copy_at_length in E3. split; [|exact E3].
  assert (L1 : length p1 = 8).
  { destruct (Nat.ltb (n_plen n) maxPrefixLen).
    - apply bind_inv in E1 as (k & _ & E1). apply bind_inv in E1 as (x & E1 & E4). apply Ok_inj in E4. injection E4 as <- _.
      apply upd_inv in E1 as (_ & ->). now rewrite set_nth_length.
    - apply Ok_inj in E1. injection E1 as <- _. exact L. }
  destruct (Nat.ltb pl maxPrefixLen).
  - apply bind_inv in E2 as (k & _ & E2). apply bind_inv in E2 as (x & E2 & E4). apply Ok_inj in E4. injection E4 as <- _.
    apply copy_at_length in E2. congruence.
  - apply Ok_inj in E2. injection E2 as <- _. exact L1.
Qed.

Lemma pre_wok t x : Forall (wok t) (pre_writes x).
Proof. unfold pre_writes. apply Forall_map, Forall_forall. intros i _. exact Logic.I. Qed.

Ltac woks tac := repeat (apply Forall_cons; [first [exact Logic.I|tac]|]); apply Forall_nil.

(** ** Whole critical sections *)
Section Commit.
Context (m : mem) (o : op) (f : frame) (c : cell) (Hc : cell_at m (f_cur f) = Some c).
Context (Hs : shape (n_type (c_node c)) (c_node c)).

Lemma put_on n' ws : fold_left wr ws (c_node c) = n' -> put_node m (f_cur f) n' = Ok (awrs m (on (f_cur f) ws)).
Proof. intros <-. rewrite (put_node_ok _ _ _ _ Hc), (awrs_on _ _ _ _ Hc). reflexivity. Qed.

Theorem wprog_commit mu m' : commit m o f mu = Ok m' ->
  exists ws fn, wprog m o f mu = Ok (ws, fn) /\ run_fin fn (awrs m ws) = Ok m' /\
    (forall x, In x ws -> fst x = f_cur f) /\ fin_at f mu fn /\
    ((forall c', cell_at m' (f_cur f) = Some c' -> retires mu = false -> shape (n_type (c_node c)) (c_node c')) ->
     Forall (fun x => wok (n_type (c_node c)) (snd x)) ws).
Proof.
  unfold commit, wprog. rewrite (get_node_ok _ _ _ Hc). cbn [bind]. intros H.
  assert (ON : forall ws x, In x (on (f_cur f) ws) -> fst x = f_cur f).
  { intros ws x X. unfold on in X. apply in_map_iff in X as (w & <- & _). reflexivity. }
  assert (OF : forall (P : fw -> Prop) ws, Forall P ws -> Forall (fun x => P (snd x)) (on (f_cur f) ws)).
  { intros P ws X. unfold on. apply Forall_map. exact X. }
  assert (NIL : forall fn, run_fin fn m = Ok m' -> fin_at f mu fn -> exists ws fn0, Ok ([] : list (nat * fw), fn) = Ok (ws, fn0) /\ run_fin fn0 (awrs m ws) = Ok m' /\
    (forall x, In x ws -> fst x = f_cur f) /\ fin_at f mu fn0 /\
    ((forall c', cell_at m' (f_cur f) = Some c' -> retires mu = false -> shape (n_type (c_node c)) (c_node c')) ->
     Forall (fun x => wok (n_type (c_node c)) (snd x)) ws)).
  { intros fn E NE. exists [], fn. split; [reflexivity|]. split; [exact E|]. split; [intros x []|]. split; auto. }
  assert (INPL : forall n' ws, fold_left wr ws (c_node c) = n' -> put_node m (f_cur f) n' = Ok m' ->
    (shape (n_type (c_node c)) n' -> Forall (wok (n_type (c_node c))) ws) -> retires mu = false ->
    exists ws0 fn0, Ok (on (f_cur f) ws, FNone) = Ok (ws0, fn0) /\ run_fin fn0 (awrs m ws0) = Ok m' /\
    (forall x, In x ws0 -> fst x = f_cur f) /\ fin_at f mu fn0 /\
    ((forall c', cell_at m' (f_cur f) = Some c' -> retires mu = false -> shape (n_type (c_node c)) (c_node c')) ->
     Forall (fun x => wok (n_type (c_node c)) (snd x)) ws0)).
  { intros n' ws E1 E2 W RT. exists (on (f_cur f) ws), FNone. split; [reflexivity|].
    rewrite (put_on _ _ E1) in E2. apply Ok_inj in E2. split; [cbn [run_fin]; congruence|]. split; [apply ON|]. split; [first [exact Logic.I|left; split; reflexivity]|].
    intros SH. apply OF, W. rewrite (awrs_on _ _ _ _ Hc) in E2. subst m'.
    specialize (SH _ ltac:(rewrite cell_upd, Nat.eqb_refl by (eapply cell_lt; eauto); reflexivity) RT). cbn [c_node] in SH. now rewrite E1 in SH. }
  destruct o as [key value|key|key]; [| |]; cbn [op_key] in *; destruct mu; try discriminate.
  - (* MSplit *) apply bind_inv in H as ((n', nn) & E1 & H). rewrite E1. cbn [bind]. destruct (split_form _ _ _ _ _ _ _ _ _ E1) as (L8 & EN).
    pose proof Hs as (_ & L8' & _).
    assert (EW : fold_left wr (WPlen (n_plen n') :: pre_writes (n_prefix n')) (c_node c) = n').
    { cbn [fold_left wr]. rewrite fold_pre_writes by auto. now rewrite <- EN. }
    rewrite (put_on _ _ EW) in H. cbn [bind] in H. eexists _, _. split; [reflexivity|]. split; [exact H|]. split; [apply ON|]. split; [first [exact Logic.I|left; split; reflexivity]|].
    intros _. apply OF. constructor; [exact Logic.I|]. apply pre_wok.
  - (* MLeaf *) eapply INPL; [reflexivity|exact H| |reflexivity]. intros _. constructor; [exact Logic.I|constructor].
  - (* MGrow *) apply bind_inv in H as (b & E1 & H). apply bind_inv in H as (nn & E2 & H). rewrite E1. cbn [bind]. rewrite E2. cbn [bind].
    apply NIL; [exact H|left; split; reflexivity].
  - (* MIns *) apply bind_inv in H as (b & E1 & H). apply bind_inv in H as (nn & E2 & H). rewrite E1. cbn [bind]. rewrite E2. cbn [bind].
    eapply INPL; [exact (fold_ins _ _ _ _ E2)|exact H| |reflexivity]. intros SH. pose proof (shape_num _ _ SH) as SN. destruct SH as (_ & _ & SH).
    unfold insertChild in E2. unfold ins_writes. destruct (n_type (c_node c)) eqn:Et; try discriminate.
    1-2: unfold insertChild_small in E2; apply bind_inv in E2 as (ks & _ & E2); apply bind_inv in E2 as (cs & _ & E2); apply Ok_inj in E2;
      subst nn; woks ltac:(exact SN).
    + unfold insertChild48 in E2. unfold allocSlot in E2 |- *. cbn [fst snd n_slots set_slots n_children n_index n_num] in *.
      apply bind_inv in E2 as (cs & _ & E2). apply bind_inv in E2 as (ix & EI & E2). apply Ok_inj in E2. apply upd_inv in EI as (LI & ->). subst nn.
      destruct SH as (_ & _ & F & _). cbn [n_index set_num set_index] in F. rewrite Forall_forall in F.
      woks ltac:(first [exact SN|apply F; eapply nth_error_In with (n := b); now apply nth_error_set_nth_eq]).
    + unfold insertChild256 in E2. apply bind_inv in E2 as (cs & _ & E2). apply Ok_inj in E2. subst nn. woks ltac:(exact SN).
  - (* MExp *) apply bind_inv in H as (r & E1 & H). rewrite E1. cbn [bind]. destruct r; (apply NIL; [exact H|right; eexists; reflexivity]).
  - (* MCompress *) apply bind_inv in H as (oi & E1 & H). rewrite E1. cbn [bind]. destruct oi as [i|]; [|discriminate].
    apply bind_inv in H as (co & E2 & H). rewrite E2. cbn [bind]. destruct co as [[|l]|]; try discriminate. apply NIL; [exact H|left; split; reflexivity].
  - (* MClear *) eapply INPL; [reflexivity|exact H| |reflexivity]. intros _. constructor; [exact Logic.I|constructor].
  - (* MShrink *) apply bind_inv in H as (oi & E1 & H). rewrite E1. cbn [bind]. destruct oi as [i|].
    + apply bind_inv in H as (co & E2 & H). rewrite E2. cbn [bind]. destruct co as [[|l]|]; try discriminate. apply NIL; [exact H|left; split; reflexivity].
    + apply bind_inv in H as (b & E2 & H). rewrite E2. cbn [bind]. destruct (n_type (c_node c)); try discriminate.
      * destruct (n_pleaf (c_node c)); (apply NIL; [exact H|left; split; reflexivity]).
      * apply bind_inv in H as (nn & E3 & H). rewrite E3. cbn [bind]. apply NIL; [exact H|left; split; reflexivity].
      * apply bind_inv in H as (nn & E3 & H). rewrite E3. cbn [bind]. apply NIL; [exact H|left; split; reflexivity].
      * apply bind_inv in H as (nn & E3 & H). rewrite E3. cbn [bind]. apply NIL; [exact H|left; split; reflexivity].
  - (* MRem *) apply bind_inv in H as (n' & E2 & H). rewrite E2. cbn [bind].
    eapply INPL; [exact (fold_rem _ _ _ E2)|exact H| |reflexivity]. intros SH. pose proof (shape_num _ _ SH) as SN.
    unfold removeChild in E2. unfold rem_writes. destruct (n_type (c_node c)) eqn:Et.
    1-2: apply bind_inv in E2 as (kt & _ & E2); apply bind_inv in E2 as (ks & _ & E2); apply bind_inv in E2 as (ct & _ & E2);
      apply bind_inv in E2 as (cs & _ & E2); apply bind_inv in E2 as (cs' & _ & E2); apply Ok_inj in E2; subst n';
      (apply Forall_app; split; [apply Forall_map, Forall_forall; intros x _; exact Logic.I|]);
      (apply Forall_app; split; [apply Forall_map, Forall_forall; intros x _; exact Logic.I|]); woks ltac:(exact SN).
    + apply bind_inv in E2 as (ix & _ & E2). destruct (Nat.eqb_spec ix 0); [discriminate|].
      apply bind_inv in E2 as (ixs & _ & E2). apply bind_inv in E2 as (cs & _ & E2). apply Ok_inj in E2. subst n'. woks ltac:(first [exact SN|cbn; lia]).
    + apply bind_inv in E2 as (cs & _ & E2). apply Ok_inj in E2. subst n'. woks ltac:(exact SN).
    + constructor.
Qed.

Theorem wprog_child_commit i ch c2 m' : cell_at m ch = Some c2 -> ch <> f_cur f -> shape (n_type (c_node c2)) (c_node c2) ->
  commit_child m f i ch = Ok m' ->
  exists ws, wprog_child m f i ch = Ok (ws, FUnl ch (f_loc f)) /\ store (awrs m ws) (f_loc f) (PNode ch) = Ok m' /\
    (forall x, In x ws -> fst x = f_cur f \/ fst x = ch) /\ (forall t, Forall (fun x => wok t (snd x)) ws).
Proof.
  unfold commit_child, wprog_child. intros H2 NE Hs2 H. rewrite (get_node_ok _ _ _ Hc), (get_node_ok _ _ _ H2) in *. cbn [bind] in *.
  apply bind_inv in H as (((pre, tmp), plen) & E & H). rewrite E. cbn [bind]. pose proof Hs as (_ & L8 & _). pose proof Hs2 as (_ & L82 & _).
  destruct (merge_form _ _ _ _ _ _ E L8) as (LP & LT).
  rewrite (put_on _ _ (fold_pre_writes _ _ LP L8)) in H. cbn [bind] in H.
  set (m1 := awrs m (on (f_cur f) (pre_writes pre))) in *.
  assert (C1 : cell_at m1 ch = Some c2).
  { unfold m1. rewrite (awrs_on _ _ _ _ Hc), cell_upd by (eapply cell_lt; eauto). now rewrite (proj2 (Nat.eqb_neq (f_cur f) ch)) by auto. }
  rewrite (put_node_ok _ _ _ _ C1) in H. cbn [bind] in H.
  eexists. split; [reflexivity|]. split; [|split].
  - rewrite awrs_app. fold m1. rewrite (awrs_on _ _ _ _ C1), fold_left_app, fold_pre_writes by auto. exact H.
  - intros x X. apply in_app_iff in X as [X|X]; unfold on in X; apply in_map_iff in X as (w & <- & _); auto.
  - intros t. apply Forall_app. split; unfold on; apply Forall_map; [apply pre_wok|]. apply Forall_app. split; [apply pre_wok|]. repeat constructor.
Qed.
End Commit.
