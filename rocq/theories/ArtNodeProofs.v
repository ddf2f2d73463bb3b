(** * ArtNodeProofs: every node layout implements a partial map from bytes to children. *)
From Verif Require Import Base BitsModel BitsFacts VecModel VecProofs VecProofs2 ArtNode.
Ltac Zify.zify_post_hook ::= Z.div_mod_to_equations.

(** ** Leaf codec *)
Lemma slice_from_app {A} (a b : list A) n : n = length a -> slice_from (a ++ b) n = Ok b.
Proof.
  intros ->. unfold slice_from. rewrite app_length. bc. f_equal.
  rewrite skipn_app, skipn_all, Nat.sub_diag. reflexivity.
Qed.

Lemma slice_app_mid {A} (a b c : list A) i j : i = length a -> j = length a + length b ->
  slice (a ++ b ++ c) i j = Ok b.
Proof.
  intros -> ->. unfold slice. rewrite !app_length. bc.
  cbn [andb]. f_equal. rewrite skipn_app, skipn_all, Nat.sub_diag. cbn [skipn app].
  replace (length a + length b - length a) with (length b) by lia.
  rewrite firstn_app, firstn_all, Nat.sub_diag. cbn. apply app_nil_r.
Qed.

Lemma leaf_key_newLeaf k v : fits32 (length k) -> leaf_key (newLeaf k v) = Ok k.
Proof.
  intros H. unfold leaf_key, newLeaf.
  change (typeLeaf :: put32 (length k) ++ k ++ put32 (length v) ++ v)
    with ([typeLeaf] ++ put32 (length k) ++ k ++ put32 (length v) ++ v).
  rewrite slice_from_app by reflexivity. cbn [bind]. rewrite get32_put32 by auto. cbn [bind].
  rewrite app_assoc. apply slice_app_mid; reflexivity.
Qed.

Lemma leaf_value_newLeaf k v : fits32 (length k) -> fits32 (length v) ->
  leaf_value (newLeaf k v) = Ok v.
Proof.
  intros H H2. unfold leaf_value, newLeaf.
  change (typeLeaf :: put32 (length k) ++ k ++ put32 (length v) ++ v)
    with ([typeLeaf] ++ put32 (length k) ++ k ++ put32 (length v) ++ v).
  rewrite slice_from_app by reflexivity. cbn [bind]. rewrite get32_put32 by auto. cbn [bind].
  rewrite app_assoc, app_assoc. rewrite slice_from_app.
  2: { rewrite !app_length. cbn. lia. }
  cbn [bind]. rewrite get32_put32 by auto. cbn [bind]. rewrite app_assoc.
  rewrite <- (app_nil_r v) at 2. apply slice_app_mid; rewrite !app_length; cbn [length put32]; lia.
Qed.

Lemma leaf_match_newLeaf k v k' : fits32 (length k) -> leaf_match (newLeaf k v) k' = Ok (beqb k k').
Proof. intros H. unfold leaf_match. rewrite leaf_key_newLeaf by auto. reflexivity. Qed.

(** ** The map a node stands for *)
Definition isSome {A} (o : option A) : bool := match o with Some _ => true | None => false end.

Definition V (n : node) (b : nat) : option ptr :=
  match n_type n with
  | Node4 | Node16 =>
      match indexByte (firstn (n_num n) (n_keys n)) b with
      | Some i => nth i (n_children n) None
      | None => None
      end
  | Node48 => match nth b (n_index n) 0 with O => None | S p => nth p (n_children n) None end
  | Node256 => nth b (n_children n) None
  | Dummy => None
  end.

Definition nchild (n : node) : nat := cnt (fun b => isSome (V n b)) 256.

Definition hdr (n : node) := (n_plen n, n_pleaf n, n_prefix n).

Definition cap (t : ntype) : nat :=
  match t with Node4 => 4 | Node16 => 16 | Node48 => 48 | Node256 => 256 | Dummy => 0 end.

Definition small (t : ntype) : bool := match t with Node4 | Node16 => true | _ => false end.

Record small_ok (n : node) : Prop := {
  so_type : small (n_type n) = true;
  so_klen : length (n_keys n) = cap (n_type n);
  so_clen : length (n_children n) = cap (n_type n);
  so_num : n_num n <= cap (n_type n);
  so_byte : forall i, i < n_num n -> nth i (n_keys n) 0 < 256;
  so_inj : forall i j, i < n_num n -> j < n_num n -> nth i (n_keys n) 0 = nth j (n_keys n) 0 -> i = j;
  so_some : forall i, i < n_num n -> nth i (n_children n) None <> None
}.

Record ok48 (n : node) : Prop := {
  o48_type : n_type n = Node48;
  o48_ilen : length (n_index n) = 256;
  o48_clen : length (n_children n) = 48;
  o48_lt : (n_slots n < two64)%N;
  o48_used : forall b p, nth b (n_index n) 0 = S p ->
     p < 48 /\ nth p (n_children n) None <> None /\ tb (n_slots n) (47 - p) = true;
  o48_inj : forall b b' p, nth b (n_index n) 0 = S p -> nth b' (n_index n) 0 = S p -> b = b';
  o48_top : forall i, 48 <= i -> i < 64 -> tb (n_slots n) i = true;
  o48_cnt : cnt (tb (n_slots n)) 48 = nchild n
}.

Definition layout_ok (n : node) : Prop :=
  n_num n = nchild n mod 256 /\ nchild n <= cap (n_type n) /\
  match n_type n with
  | Node4 | Node16 => small_ok n
  | Node48 => ok48 n
  | Node256 => length (n_children n) = 256
  | Dummy => False
  end.

(** ** Counting *)
Lemma option_ext {A} (a b : option A) : (forall p, a = Some p <-> b = Some p) -> a = b.
Proof.
  intros H. destruct a as [x|], b as [y|]; auto.
  - symmetry. now apply H.
  - symmetry. now apply H.
  - now apply H.
Qed.

Lemma cnt_set f g p n : p < n -> f p = false -> g p = true -> (forall i, i < n -> i <> p -> g i = f i) ->
  cnt g n = S (cnt f n).
Proof.
  induction n as [|n IH]; intros Hp Hf Hg Ho; [lia|]. cbn.
  destruct (Nat.eq_dec p n) as [->|Hne].
  - rewrite Hf, Hg. rewrite (cnt_ext g f); [lia|]. intros i Hi. apply Ho; lia.
  - rewrite IH; auto; try lia. rewrite (Ho n) by lia. reflexivity.
Qed.

Lemma cnt_all f n : cnt f n = n -> forall i, i < n -> f i = true.
Proof.
  induction n as [|n IH]; intros H i Hi; [lia|]. cbn in H.
  pose proof (cnt_le f n). destruct (f n) eqn:E; [|lia].
  destruct (Nat.eq_dec i n) as [->|]; auto. apply IH; lia.
Qed.

Lemma cnt_lt_exists f n : cnt f n < n -> exists i, i < n /\ f i = false.
Proof.
  induction n as [|n IH]; intros H; cbn in H; [lia|].
  destruct (f n) eqn:E.
  - destruct IH as (i & Hi & Hf); [lia|]. exists i; split; auto.
  - exists n; auto.
Qed.

Lemma cnt_pos f n i : i < n -> f i = true -> 0 < cnt f n.
Proof.
  intros Hi Hf. assert (cnt f (S i) <= cnt f n) by (apply cnt_mono; lia). cbn in *. rewrite Hf in *. lia.
Qed.

Lemma cnt_image (g : nat -> nat) num N :
  (forall i, i < num -> g i < N) ->
  (forall i j, i < num -> j < num -> g i = g j -> i = j) ->
  cnt (fun b => existsb (fun i => Nat.eqb (g i) b) (seq 0 num)) N = num.
Proof.
  induction num as [|num IH]; intros Hb Hi.
  - cbn. apply cnt_false. auto.
  - rewrite (cnt_set (fun b => existsb (fun i => Nat.eqb (g i) b) (seq 0 num)) _ (g num)).
    + f_equal. apply IH; auto.
    + auto.
    + destruct (existsb _ _) eqn:E; auto. apply existsb_exists in E as (i & Hin & E).
      apply in_seq in Hin. apply Nat.eqb_eq in E. apply Hi in E; lia.
    + apply existsb_exists. exists num. split; [apply in_seq; lia|apply Nat.eqb_refl].
    + intros b Hb' Hne. rewrite seq_S, existsb_app. cbn [existsb Nat.add].
      destruct (Nat.eqb_spec (g num) b); [congruence|]. now rewrite !orb_false_r.
Qed.

Lemma cnt_le_pointwise f g n : (forall i, i < n -> f i = true -> g i = true) -> cnt f n <= cnt g n.
Proof.
  induction n as [|n IH]; intros H; cbn; [lia|].
  assert (cnt f n <= cnt g n) by (apply IH; auto).
  specialize (H n ltac:(lia)). destruct (f n); [rewrite H by auto|destruct (g n)]; lia.
Qed.

(** ** Small nodes *)
Lemma indexByte_firstn_Some l k m i : indexByte (firstn m l) k = Some i ->
  i < m /\ i < length l /\ nth i l 0 = k /\ indexByte l k = Some i.
Proof.
  revert m i. induction l as [|x l IH]; intros [|m] i H; cbn in H; try discriminate.
  cbn [nth indexByte length]. destruct (Nat.eqb_spec x k).
  - inversion H; subst. split; [lia|]. split; [lia|]. auto.
  - destruct (indexByte (firstn m l) k) as [j|] eqn:E; [|discriminate]. inversion H; subst.
    apply IH in E as (?&?&?&->). cbn. split; [lia|]. split; [lia|]. auto.
Qed.

Lemma indexByte_firstn_None l k m i : indexByte (firstn m l) k = None -> indexByte l k = Some i -> m <= i.
Proof.
  revert m i. induction l as [|x l IH]; intros [|m] i H H2; cbn in *; try discriminate; try lia.
  destruct (Nat.eqb_spec x k); [discriminate|].
  destruct (indexByte (firstn m l) k) as [j|] eqn:E; [discriminate|].
  destruct (indexByte l k) as [j|]; [|discriminate]. inversion H2; subst.
  specialize (IH m j E eq_refl). lia.
Qed.

Lemma nth_firstn {A} (l : list A) m i d : i < m -> nth i (firstn m l) d = nth i l d.
Proof.
  revert m i. induction l as [|x l IH]; intros [|m] [|i] H; cbn; try lia; auto. apply IH. lia.
Qed.

Lemma nth_skipn {A} (l : list A) m i d : nth i (skipn m l) d = nth (m + i) l d.
Proof. revert l. induction m as [|m IH]; intros [|x l]; cbn; auto. now destruct i. Qed.

Lemma indexByte_In l k : In k l -> exists i, indexByte l k = Some i.
Proof.
  intros H. destruct (indexByte l k) as [i|] eqn:E; [eauto|]. now apply indexByte_None in E.
Qed.

Lemma V_small n b p : small_ok n ->
  (V n b = Some p <->
   exists i, i < n_num n /\ nth i (n_keys n) 0 = b /\ nth i (n_children n) None = Some p).
Proof.
  intros S. unfold V. pose proof (so_type n S) as Ht. unfold small in Ht.
  assert (E : forall X Y : option ptr, match n_type n with Node4 | Node16 => X | _ => Y end = X)
    by (intros; destruct (n_type n); try discriminate; reflexivity).
  assert (G : match n_type n with
    | Node4 | Node16 =>
      match indexByte (firstn (n_num n) (n_keys n)) b with
      | Some i => nth i (n_children n) None
      | None => None
      end
    | Node48 => match nth b (n_index n) 0 with O => None | S p => nth p (n_children n) None end
    | Node256 => nth b (n_children n) None
    | Dummy => None
    end = match indexByte (firstn (n_num n) (n_keys n)) b with
      | Some i => nth i (n_children n) None
      | None => None
      end) by (destruct (n_type n); try discriminate; reflexivity).
  rewrite G. clear G E. split.
  - destruct (indexByte _ b) as [i|] eqn:E; [|discriminate]. intros H.
    apply indexByte_firstn_Some in E as (?&?&?&_). eauto.
  - intros (i & Hi & Hk & Hc).
    destruct (indexByte_In (firstn (n_num n) (n_keys n)) b) as [j Ej].
    { rewrite <- Hk. rewrite <- (nth_firstn _ (n_num n)) by auto. apply nth_In.
      rewrite firstn_length. pose proof (so_klen n S). pose proof (so_num n S). lia. }
    rewrite Ej. apply indexByte_firstn_Some in Ej as (Hj&_&Hkj&_).
    rewrite (so_inj n S j i) by congruence. exact Hc.
Qed.

Lemma small_count n : small_ok n -> nchild n = n_num n.
Proof.
  intros S. unfold nchild.
  rewrite <- (cnt_image (fun i => nth i (n_keys n) 0) (n_num n) 256) at 1.
  - apply cnt_ext. intros b Hb.
    destruct (existsb _ _) eqn:E.
    + apply existsb_exists in E as (i & Hin & E). apply in_seq in Hin. apply Nat.eqb_eq in E.
      assert (Hi : i < n_num n) by lia.
      destruct (nth i (n_children n) None) as [p|] eqn:Ec; [|now apply (so_some n S) in Hi].
      assert (V n b = Some p) as -> by (apply V_small; eauto). reflexivity.
    + destruct (V n b) as [p|] eqn:EV; auto. exfalso.
      apply V_small in EV as (i & Hi & Hk & _); auto.
      assert (X : existsb (fun i => Nat.eqb (nth i (n_keys n) 0) b) (seq 0 (n_num n)) = true).
      { apply existsb_exists. exists i. split; [apply in_seq; lia|]. now apply Nat.eqb_eq. }
      congruence.
  - apply (so_byte n S).
  - apply (so_inj n S).
Qed.

Lemma small_layout n : small_ok n -> layout_ok n.
Proof.
  intros S. pose proof (small_count n S) as C. pose proof (so_num n S) as Hn.
  unfold layout_ok. rewrite C.
  pose proof (so_type n S) as T. destruct (n_type n) eqn:Et; try discriminate; cbn [cap] in *; split; try split; auto; lia.
Qed.

Lemma V_byte n b : layout_ok n -> 256 <= b -> V n b = None.
Proof.
  intros (_ & _ & L) Hb. unfold V. destruct (n_type n) eqn:Et; auto.
  - destruct (indexByte _ b) as [i|] eqn:E; auto. apply indexByte_firstn_Some in E as (Hi&_&Hk&_).
    apply (so_byte n L) in Hi. lia.
  - destruct (indexByte _ b) as [i|] eqn:E; auto. apply indexByte_firstn_Some in E as (Hi&_&Hk&_).
    apply (so_byte n L) in Hi. lia.
  - rewrite nth_overflow by (rewrite (o48_ilen n L); lia). reflexivity.
  - apply nth_overflow. lia.
Qed.

(** ** findChild *)
Lemma find4_loop_spec n b f i : i + f <= length (n_keys n) ->
  find4_loop n b f i = Ok (option_map (fun j => i + j) (indexByte (firstn f (skipn i (n_keys n))) b)).
Proof.
  revert i. induction f as [|f IH]; intros i H; cbn [find4_loop]; [reflexivity|].
  rewrite (@idx_in byte _ i 0) by lia. cbn [bind].
  assert (E : skipn i (n_keys n) = nth i (n_keys n) 0 :: skipn (S i) (n_keys n)).
  { apply list_eq_nth_error. intros j. rewrite skipn_nth_error. destruct j; cbn [nth_error].
    - rewrite Nat.add_0_r. apply nth_error_nth'. lia.
    - rewrite skipn_nth_error. f_equal. lia. }
  rewrite E. cbn [firstn indexByte]. destruct (Nat.eqb_spec (nth i (n_keys n) 0) b).
  - cbn. now rewrite Nat.add_0_r.
  - rewrite IH by lia. rewrite Nat.add_1_r.
    destruct (indexByte (firstn f (skipn (S i) (n_keys n))) b); cbn; auto. do 2 f_equal. lia.
Qed.

(** The slot of byte [b] in the node's arrays. *)
Definition slot_of (n : node) (b slot pos : nat) : Prop :=
  match n_type n with
  | Node4 | Node16 => slot = pos /\ pos < n_num n /\ nth pos (n_keys n) 0 = b
  | Node48 => pos = b /\ nth b (n_index n) 0 = S slot
  | Node256 => slot = b /\ pos = b
  | Dummy => False
  end.

Lemma find_spec n b : layout_ok n -> b < 256 ->
  exists slot pos, findChild n b = Ok (V n b, slot, pos) /\ (V n b <> None -> slot_of n b slot pos).
Proof.
  intros (Hn & Hc & L) Hb. unfold findChild, V, slot_of. destruct (n_type n) eqn:Et.
  - rewrite find4_loop_spec by (rewrite (so_klen n L), Et; cbn; pose proof (so_num n L) as X; rewrite Et in X; exact X).
    cbn [skipn]. destruct (indexByte _ b) as [i|] eqn:E.
    + apply indexByte_firstn_Some in E as (Hi & Hl & Hk & _). cbn [option_map bind Nat.add].
      rewrite (idx_in _ i None) by (rewrite (so_clen n L), <- (so_klen n L); auto). cbn [bind].
      exists i, i. auto.
    + cbn [option_map bind]. exists 0, 0. split; [reflexivity|congruence].
  - destruct (indexByte (firstn _ _) b) as [i|] eqn:E.
    + apply indexByte_firstn_Some in E as (Hi & Hl & Hk & ->). bc.
      rewrite (idx_in _ i None) by (rewrite (so_clen n L), <- (so_klen n L); auto). cbn [bind].
      exists i, i. auto.
    + destruct (indexByte (n_keys n) b) as [i|] eqn:E2.
      * pose proof (indexByte_firstn_None _ _ _ _ E E2). bc.
        exists 0, 0. split; [reflexivity|congruence].
      * exists 0, 0. split; [reflexivity|congruence].
  - rewrite (idx_in _ b 0) by (rewrite (o48_ilen n L); auto). cbn [bind].
    destruct (nth b (n_index n) 0) as [|p] eqn:E.
    + cbn. exists 0, 0. split; [reflexivity|congruence].
    + destruct (o48_used n L b p E) as (Hp & _ & _).
      change (Nat.ltb 0 (S p)) with true. cbn iota. replace (S p - 1) with p by lia.
      rewrite (idx_in _ p None) by (rewrite (o48_clen n L); auto). cbn [bind].
      exists p, b. auto.
  - rewrite (idx_in _ b None) by lia. cbn [bind]. exists b, b. auto.
  - contradiction.
Qed.

(** ** Replacing a child in place (the store through nodeLoc) *)
Lemma set_slot_spec n b slot pos q : layout_ok n -> V n b <> None -> slot_of n b slot pos ->
  let n' := set_children n (set_nth (n_children n) slot (Some q)) in
  slot < length (n_children n) /\ layout_ok n' /\
  (forall b', V n' b' = if Nat.eqb b' b then Some q else V n b') /\ slot_of n' b slot pos.
Proof.
  intros L HV Hs n'.
  assert (Hb : b < 256).
  { destruct (Nat.lt_ge_cases b 256); auto. exfalso. apply HV. now apply V_byte. }
  assert (A : slot < length (n_children n) /\
    (match n_type n with Node4 | Node16 => small_ok n' | Node48 => nchild n' = nchild n -> ok48 n'
       | Node256 => length (n_children n') = 256 | Dummy => False end) /\
    (forall b', V n' b' = if Nat.eqb b' b then Some q else V n b')).
  { destruct L as (_ & _ & L). unfold slot_of in Hs.
    assert (SM : small_ok n -> slot = pos /\ pos < n_num n /\ nth pos (n_keys n) 0 = b ->
       slot < length (n_children n) /\ small_ok n' /\
       (forall b', V n' b' = if Nat.eqb b' b then Some q else V n b')).
    { intros SO (-> & Hpos & Hk).
      assert (Hlen : pos < length (n_children n)) by (rewrite (so_clen n SO); pose proof (so_num n SO); lia).
      assert (SO' : small_ok n').
      { destruct SO. constructor; cbn; auto. - now rewrite set_nth_length.
        - intros i Hi. rewrite nth_set_nth. bc; cbn [andb]; try discriminate; auto. }
      split; [exact Hlen|]. split; [exact SO'|].
      intros b'. apply option_ext. intros p.
      rewrite V_small by auto. destruct (Nat.eqb_spec b' b) as [->|Hne].
      - split.
        + intros (i & Hi & Hki & Hci). cbn in *. assert (i = pos) by (apply (so_inj n SO); auto; congruence).
          subst i. rewrite nth_set_nth in Hci. revert Hci. bc; cbn [andb]; try lia. auto.
        + intros E. exists pos. cbn. rewrite nth_set_nth. bc; cbn [andb]; try lia. auto.
      - rewrite V_small by auto. cbn. split; intros (i & Hi & Hki & Hci); exists i; (split; [auto|]); (split; [auto|]);
          rewrite nth_set_nth in *; (destruct (Nat.eqb_spec pos i); [subst; congruence|]); auto. }
    destruct (n_type n) eqn:Et; auto.
    - destruct Hs as (-> & Hix).
      destruct (o48_used n L b slot Hix) as (Hp & Hnn & Htb).
      assert (Hlen : slot < length (n_children n)) by (rewrite (o48_clen n L); lia).
      split; [exact Hlen|]. split.
      + intros C. destruct L. constructor; cbn; auto.
        * now rewrite set_nth_length.
        * intros b0 p Hb0. destruct (o48_used0 b0 p Hb0) as (?&?&?).
          split; [auto|]. split; [|auto]. rewrite nth_set_nth. bc; cbn [andb]; try discriminate; auto.
        * change (cnt (tb (n_slots n)) 48 = nchild n'). rewrite C. auto.
      + intros b'. unfold V. cbn. rewrite Et. destruct (Nat.eqb_spec b' b) as [->|Hne].
        * rewrite Hix. rewrite nth_set_nth. bc; cbn [andb]; try lia. auto.
        * destruct (nth b' (n_index n) 0) as [|p] eqn:E; auto.
          rewrite nth_set_nth. destruct (Nat.eqb_spec slot p); [|auto].
          subst p. exfalso. apply Hne. eapply (o48_inj n L); eauto.
    - destruct Hs as (-> & ->). split; [lia|]. split; [cbn; now rewrite set_nth_length|].
      intros b'. unfold V. cbn. rewrite Et. rewrite nth_set_nth.
      rewrite (Nat.eqb_sym b b'). destruct (Nat.eqb b' b); cbn [andb]; auto. bc; auto; lia.
    - contradiction. }
  destruct A as (A1 & A2 & A3). split; [exact A1|].
  assert (C : nchild n' = nchild n).
  { unfold nchild. apply cnt_ext. intros i _. rewrite A3. destruct (Nat.eqb_spec i b) as [->|]; auto.
    cbn. destruct (V n b); auto. congruence. }
  split; [|split; [exact A3|]].
  - destruct L as (Hn & Hc & L). unfold layout_ok. rewrite C. cbn. split; [auto|]. split; [auto|].
    destruct (n_type n); auto.
  - unfold slot_of in *. cbn. exact Hs.
Qed.

(** ** node48 slots *)
Lemma tb_not64 x i : tb (not64 x) i = if Nat.ltb i 64 then negb (tb x i) else tb x i.
Proof.
  unfold not64, tb. rewrite N.lxor_spec. change 18446744073709551615%N with (N.ones 64).
  bc.
  - rewrite N.ones_spec_low by lia. apply xorb_true_r.
  - rewrite N.ones_spec_high by lia. apply xorb_false_r.
Qed.

Lemma tb_slot_bit p i : tb (slot_bit p) i = Nat.ltb p 48 && Nat.eqb i (47 - p).
Proof.
  unfold slot_bit. destruct (Nat.ltb_spec p 48); cbn [andb].
  - rewrite tb_shl64, tb_one. bc; cbn [andb]; auto; lia.
  - unfold tb. apply N.bits_0.
Qed.

Lemma alloc_slot_spec n : (n_slots n < two64)%N -> (forall i, 48 <= i -> i < 64 -> tb (n_slots n) i = true) ->
  cnt (tb (n_slots n)) 48 < 48 ->
  exists p, p < 48 /\ tb (n_slots n) (47 - p) = false /\
    allocSlot n = (set_slots n (N.lor (n_slots n) (slot_bit p)), p).
Proof.
  intros Hlt Htop Hc.
  apply cnt_lt_exists in Hc as (i & Hi & Hf).
  assert (Hnz : not64 (n_slots n) <> 0%N).
  { intros E. assert (X : tb (not64 (n_slots n)) i = false) by (rewrite E; apply N.bits_0).
    rewrite tb_not64 in X. revert X. bc. rewrite Hf. discriminate. }
  destruct (len64_spec _ Hnz) as (H0 & H1 & H2).
  rewrite tb_not64 in H1.
  assert (Hlen : len64 (not64 (n_slots n)) - 1 < 48).
  { revert H1. bc; intros H1.
    - destruct (Nat.lt_ge_cases (len64 (not64 (n_slots n)) - 1) 48); auto.
      rewrite Htop in H1 by lia. discriminate.
    - rewrite (tb_high _ 64) in H1 by (exact Hlt || lia). discriminate. }
  exists (48 - len64 (not64 (n_slots n))).
  split; [lia|]. split.
  - replace (47 - (48 - len64 (not64 (n_slots n)))) with (len64 (not64 (n_slots n)) - 1) by lia.
    rewrite (proj2 (Nat.ltb_lt _ _)) in H1 by lia. apply negb_true_iff in H1. exact H1.
  - reflexivity.
Qed.

Lemma slot_bit_lt p : (slot_bit p < two64)%N.
Proof. unfold slot_bit. destruct (Nat.ltb p 48); [apply shl64_lt|reflexivity]. Qed.

(** Taking a slot for byte [b]. *)
Lemma alloc48_spec n b c : ok48 n -> nchild n < 48 -> b < 256 -> V n b = None ->
  exists n1 p, allocSlot n = (n1, p) /\
    let n' := set_children (set_index n1 (set_nth (n_index n) b (p + 1))) (set_nth (n_children n) p (Some c)) in
    p < 48 /\ n_index n1 = n_index n /\ n_children n1 = n_children n /\ n_num n1 = n_num n /\
    hdr n1 = hdr n /\ ok48 n' /\
    (forall b', V n' b' = if Nat.eqb b' b then Some c else V n b').
Proof.
  intros O Hcnt Hb HV.
  destruct (alloc_slot_spec n (o48_lt n O) (o48_top n O)) as (p & Hp & Hfree & Ha).
  { rewrite (o48_cnt n O). auto. }
  rewrite Ha. eexists. exists p. split; [reflexivity|]. cbn zeta.
  split; [auto|]. do 4 (split; [reflexivity|]).
  assert (Hb0 : nth b (n_index n) 0 = 0).
  { destruct (nth b (n_index n) 0) as [|q] eqn:E; auto. exfalso.
    destruct (o48_used n O b q E) as (_ & Hs & _). unfold V in HV. rewrite (o48_type n O), E in HV. auto. }
  assert (Hnp : forall b', nth b' (n_index n) 0 <> S p).
  { intros b' E. destruct (o48_used n O b' p E) as (_ & _ & Hx). congruence. }
  set (n' := set_children _ _).
  assert (HI : forall b', nth b' (n_index n') 0 = if Nat.eqb b' b then S p else nth b' (n_index n) 0).
  { intros b'. subst n'. cbn. rewrite nth_set_nth, (Nat.eqb_sym b b'), (o48_ilen n O).
    destruct (Nat.eqb b' b); cbn [andb]; auto. bc. }
  assert (HVV : forall b', V n' b' = if Nat.eqb b' b then Some c else V n b').
  { intros b'. unfold V. replace (n_type n') with Node48 by (symmetry; apply (o48_type n O)).
    rewrite (o48_type n O), HI. destruct (Nat.eqb_spec b' b) as [->|Hne].
    - subst n'. cbn. rewrite nth_set_nth, (o48_clen n O). bc; cbn [andb]; try lia. auto.
    - destruct (nth b' (n_index n) 0) as [|q] eqn:E; auto. subst n'; cbn. rewrite nth_set_nth.
      destruct (Nat.eqb_spec p q); [|auto]. subst q. now apply Hnp in E. }
  split; [|exact HVV].
  assert (HT : forall i, tb (n_slots n') i = tb (n_slots n) i || Nat.eqb i (47 - p)).
  { intros i. subst n'; cbn. rewrite tb_lor, tb_slot_bit. rewrite (proj2 (Nat.ltb_lt p 48)) by auto. reflexivity. }
  constructor.
  - apply (o48_type n O).
  - subst n'; cbn. rewrite set_nth_length. apply (o48_ilen n O).
  - subst n'; cbn. rewrite set_nth_length. apply (o48_clen n O).
  - subst n'; cbn. apply lor_lt64; [apply (o48_lt n O)|apply slot_bit_lt].
  - intros b' q. rewrite HI, HT. destruct (Nat.eqb_spec b' b) as [->|Hne].
    + intros E. inversion E; subst q. split; [auto|]. split.
      * subst n'; cbn. rewrite nth_set_nth, (o48_clen n O). bc; cbn [andb]; try lia. discriminate.
      * rewrite Nat.eqb_refl. apply orb_true_r.
    + intros E. destruct (o48_used n O b' q E) as (?&?&?). split; [auto|]. split.
      * subst n'; cbn. rewrite nth_set_nth. bc; cbn [andb]; auto; discriminate.
      * now rewrite H1.
  - intros b1 b2 q. rewrite !HI.
    destruct (Nat.eqb_spec b1 b), (Nat.eqb_spec b2 b); intros E1 E2; subst; auto.
    + inversion E1; subst. now apply Hnp in E2.
    + inversion E2; subst. now apply Hnp in E1.
    + eapply (o48_inj n O); eauto.
  - intros i Hi Hi'. rewrite HT, (o48_top n O) by auto. reflexivity.
  - rewrite (cnt_set (tb (n_slots n)) _ (47 - p)); try lia; auto.
    + rewrite (o48_cnt n O). unfold nchild.
      rewrite (cnt_set (fun b => isSome (V n b)) (fun b => isSome (V n' b)) b); auto.
      * now rewrite HV.
      * now rewrite HVV, Nat.eqb_refl.
      * intros i _ Hne. rewrite HVV. destruct (Nat.eqb_spec i b); [congruence|auto].
    + rewrite HT, Nat.eqb_refl. apply orb_true_r.
    + intros i _ Hne. rewrite HT. destruct (Nat.eqb_spec i (47 - p)); [congruence|apply orb_false_r].
Qed.

(** ** insertChild *)
Lemma nchild_add n n' b c : b < 256 -> V n b = None ->
  (forall b', V n' b' = if Nat.eqb b' b then Some c else V n b') -> nchild n' = S (nchild n).
Proof.
  intros Hb HV H. unfold nchild. apply (cnt_set _ _ b); auto.
  - now rewrite HV.
  - now rewrite H, Nat.eqb_refl.
  - intros i _ Hne. rewrite H. destruct (Nat.eqb_spec i b); [congruence|auto].
Qed.

Lemma nchild_del n n' b : b < 256 -> V n b <> None ->
  (forall b', V n' b' = if Nat.eqb b' b then None else V n b') -> nchild n = S (nchild n').
Proof.
  intros Hb HV H. unfold nchild. apply (cnt_set _ _ b); auto.
  - now rewrite H, Nat.eqb_refl.
  - destruct (V n b); [reflexivity|congruence].
  - intros i _ Hne. rewrite H. destruct (Nat.eqb_spec i b); [congruence|auto].
Qed.

Lemma insert_small_spec n b c : small_ok n -> n_num n < cap (n_type n) -> b < 256 -> V n b = None ->
  exists n', insertChild_small n b c = Ok n' /\ small_ok n' /\ n_type n' = n_type n /\ hdr n' = hdr n /\
    (forall b', V n' b' = if Nat.eqb b' b then Some c else V n b').
Proof.
  intros S Hn Hb HV. unfold insertChild_small, upd.
  rewrite (so_klen n S), (so_clen n S). bc. cbn [bind].
  eexists. split; [reflexivity|].
  assert (Hcap : cap (n_type n) <= 16) by (pose proof (so_type n S); destruct (n_type n); try discriminate; cbn; lia).
  assert (Ei : inc8 (n_num n) = n_num n + 1) by (unfold inc8; lia).
  set (n' := set_num _ _).
  assert (Hold : forall i, i < n_num n -> nth i (n_keys n) 0 <> b).
  { intros i Hi E. destruct (nth i (n_children n) None) as [p|] eqn:Ec; [|now apply (so_some n S) in Hi].
    assert (V n b = Some p) by (apply V_small; eauto). congruence. }
  assert (HK : forall i, i <= n_num n -> nth i (n_keys n') 0 = if Nat.eqb i (n_num n) then b else nth i (n_keys n) 0).
  { intros i Hi. subst n'; cbn. rewrite nth_set_nth, (so_klen n S), (Nat.eqb_sym i). bc; cbn [andb]; auto; lia. }
  assert (HC : forall i, i <= n_num n -> nth i (n_children n') None = if Nat.eqb i (n_num n) then Some c else nth i (n_children n) None).
  { intros i Hi. subst n'; cbn. rewrite nth_set_nth, (so_clen n S), (Nat.eqb_sym i). bc; cbn [andb]; auto; lia. }
  assert (HN : n_num n' = n_num n + 1) by exact Ei.
  assert (S' : small_ok n').
  { constructor.
    - apply (so_type n S).
    - subst n'; cbn. rewrite set_nth_length. apply (so_klen n S).
    - subst n'; cbn. rewrite set_nth_length. apply (so_clen n S).
    - rewrite HN. subst n'; cbn. lia.
    - intros i Hi. rewrite HN in Hi. rewrite HK by lia. destruct (Nat.eqb_spec i (n_num n)); auto. apply (so_byte n S). lia.
    - intros i j Hi Hj. rewrite HN in *. rewrite !HK by lia.
      destruct (Nat.eqb_spec i (n_num n)), (Nat.eqb_spec j (n_num n)); intros E; subst; auto.
      + exfalso. apply (Hold j); auto. lia.
      + exfalso. apply (Hold i); auto. lia.
      + apply (so_inj n S); auto; lia.
    - intros i Hi. rewrite HN in Hi. rewrite HC by lia. destruct (Nat.eqb_spec i (n_num n)); [discriminate|]. apply (so_some n S). lia. }
  split; [exact S'|]. split; [reflexivity|]. split; [reflexivity|].
  intros b'. apply option_ext. intros p. rewrite V_small by auto.
  destruct (Nat.eqb_spec b' b) as [->|Hne].
  - split.
    + intros (i & Hi & Hk & Hc). rewrite HN in Hi. rewrite HK in Hk by lia. rewrite HC in Hc by lia.
      destruct (Nat.eqb_spec i (n_num n)); auto. exfalso. apply (Hold i); auto. lia.
    + intros E. exists (n_num n). rewrite HN, HK, HC, Nat.eqb_refl by lia. split; [lia|auto].
  - rewrite V_small by auto. split.
    + intros (i & Hi & Hk & Hc). rewrite HN in Hi. rewrite HK in Hk by lia. rewrite HC in Hc by lia.
      destruct (Nat.eqb_spec i (n_num n)); [congruence|]. exists i. split; [lia|auto].
    + intros (i & Hi & Hk & Hc). exists i. rewrite HN, HK, HC by lia. destruct (Nat.eqb_spec i (n_num n)); [lia|].
      split; [lia|auto].
Qed.

Lemma insertChild_spec n b c : layout_ok n -> nchild n < cap (n_type n) -> b < 256 -> V n b = None ->
  exists n', insertChild n b c = Ok n' /\ layout_ok n' /\ n_type n' = n_type n /\ hdr n' = hdr n /\
    (forall b', V n' b' = if Nat.eqb b' b then Some c else V n b').
Proof.
  intros (Hn & Hc & L) Hcap Hb HV. unfold insertChild.
  destruct (n_type n) eqn:Et.
  - destruct (insert_small_spec n b c L) as (n' & E & S & T & H & HV'); auto.
    { rewrite Et. cbn [cap] in *. rewrite Hn. rewrite (small_count n L) in *. pose proof (so_num n L). lia. }
    exists n'. rewrite Et in T. auto using small_layout.
  - destruct (insert_small_spec n b c L) as (n' & E & S & T & H & HV'); auto.
    { rewrite Et. cbn [cap] in *. rewrite Hn. rewrite (small_count n L) in *. pose proof (so_num n L). lia. }
    exists n'. rewrite Et in T. auto using small_layout.
  - unfold insertChild48. destruct (alloc48_spec n b c L Hcap Hb HV) as (n1 & p & E & Hp & E1 & E2 & E3 & E4 & O & HV').
    rewrite E, E1, E2. unfold upd. rewrite (o48_clen n L), (o48_ilen n L).
    bc. cbn [bind]. eexists. split; [reflexivity|].
    set (m := set_children (set_index n1 (set_nth (n_index n) b (p + 1))) (set_nth (n_children n) p (Some c))) in *.
    set (n' := set_num _ _).
    assert (VE : forall b', V n' b' = V m b').
    { intros b'. unfold V. change (n_type n') with (n_type m). rewrite (o48_type m O). reflexivity. }
    assert (HV2 : forall b', V n' b' = if Nat.eqb b' b then Some c else V n b') by (intros; rewrite VE; auto).
    assert (NC : nchild n' = S (nchild n)).
    { apply (nchild_add n n' b c); auto. }
    split; [|split; [exact (o48_type m O)|split; [exact E4|exact HV2]]].
    split; [|split].
    + rewrite NC. change (n_num n') with (inc8 (n_num n1)). rewrite E3, Hn. unfold inc8. lia.
    + rewrite NC. change (n_type n') with (n_type m). rewrite (o48_type m O). cbn [cap] in *. lia.
    + change (n_type n') with (n_type m). rewrite (o48_type m O). destruct O. constructor; auto.
      rewrite NC, <- (nchild_add n m b c); auto.
  - unfold insertChild256, upd. rewrite L. bc. cbn [bind]. eexists. split; [reflexivity|].
    set (n' := set_num _ _).
    assert (HV' : forall b', V n' b' = if Nat.eqb b' b then Some c else V n b').
    { intros b'. unfold V. subst n'. cbn. rewrite Et, nth_set_nth, (Nat.eqb_sym b b'), L.
      destruct (Nat.eqb b' b); cbn [andb]; auto. bc; auto. }
    assert (NC : nchild n' = S (nchild n)) by (apply (nchild_add n n' b c); auto).
    split; [|split; [exact Et|split; [reflexivity|exact HV']]].
    split; [|split].
    + rewrite NC. change (n_num n') with (inc8 (n_num n)). rewrite Hn. unfold inc8. lia.
    + rewrite NC. change (n_type n') with (n_type n). rewrite Et. cbn [cap] in *. lia.
    + change (n_type n') with (n_type n). rewrite Et. change (n_children n') with (set_nth (n_children n) b (Some c)). rewrite set_nth_length. auto.
  - contradiction.
Qed.
