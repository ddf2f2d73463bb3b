(** * The dense encoding of a level. *)
From Verif Require Import Base BitsModel BitsFacts VecModel VecProofs VecProofs2 SurfModel SurfTrie SurfSuffix SurfBuild.
Ltac Zify.zify_post_hook ::= Z.div_mod_to_equations.

Definition dlab (its : list item) : list bool :=
  map (fun l => existsb (fun it => noterm it && Nat.eqb (i_label it) l) its) (seq 0 256).
Definition dhas (its : list item) : list bool :=
  map (fun l => existsb (fun it => noterm it && hasc it && Nat.eqb (i_label it) l) its) (seq 0 256).
Definition nterm (n : tnode) : bool := existsb i_term (items n).

Lemma dlab_length its : length (dlab its) = 256.
Proof. unfold dlab. now rewrite map_length, seq_length. Qed.
Lemma dhas_length its : length (dhas its) = 256.
Proof. unfold dhas. now rewrite map_length, seq_length. Qed.

Lemma flat_map_const {A B} (f : A -> list B) k l : (forall x, length (f x) = k) -> length (flat_map f l) = length l * k.
Proof. intros H. induction l; cbn [flat_map length]; [reflexivity|]. rewrite app_length, H, IHl. lia. Qed.

Lemma nth_app_off (A C : list bool) p : nth (length A + p) (A ++ C) false = nth p C false.
Proof. rewrite app_nth2 by lia. f_equal. lia. Qed.

(** Adding a label bit. *)
Lemma set_dense (g : item -> nat -> bool) ws A p it l :
  l < 256 -> (forall q, q < 256 -> g it q = Nat.eqb l q) ->
  rep ws (A ++ map (fun l => existsb (fun it => g it l) p) (seq 0 256)) -> length A + 256 <= 64 * length ws ->
  exists ws', setBit ws (length A + l) = Ok ws' /\ length ws' = length ws /\
    rep ws' (A ++ map (fun l => existsb (fun it => g it l) (p ++ [it])) (seq 0 256)).
Proof.
  intros Hl Hg [W G] L. destruct (setBit_spec ws (length A + l)) as (ws' & E & L' & W' & G'); auto; [lia|].
  exists ws'. split; auto. split; auto. split; auto. intros q. rewrite G', G.
  destruct (Nat.lt_ge_cases q (length A)).
  - rewrite !app_nth1 by auto. destruct (Nat.eqb_spec q (length A + l)); [lia|reflexivity].
  - replace q with (length A + (q - length A)) by lia. rewrite !nth_app_off.
    destruct (Nat.lt_ge_cases (q - length A) 256) as [H1|H1].
    + rewrite !nth_map_seq by auto. rewrite existsb_app. cbn [existsb]. rewrite Hg by auto. rewrite orb_false_r, orb_comm.
      f_equal. destruct (Nat.eqb_spec (length A + (q - length A)) (length A + l)), (Nat.eqb_spec l (q - length A)); auto; lia.
    + rewrite !nth_overflow by (rewrite map_length, seq_length; auto).
      destruct (Nat.eqb_spec (length A + (q - length A)) (length A + l)); [lia|reflexivity].
Qed.

Lemma keep_dense (g : item -> nat -> bool) ws A p it :
  (forall q, q < 256 -> g it q = false) ->
  rep ws (A ++ map (fun l => existsb (fun it => g it l) p) (seq 0 256)) ->
  rep ws (A ++ map (fun l => existsb (fun it => g it l) (p ++ [it])) (seq 0 256)).
Proof.
  intros Hg. replace (map (fun l => existsb (fun it => g it l) (p ++ [it])) (seq 0 256)) with (map (fun l => existsb (fun it => g it l) p) (seq 0 256)); auto.
  apply map_seq_ext. intros i Hi. rewrite existsb_app. cbn [existsb]. rewrite Hg by auto. now rewrite !orb_false_r.
Qed.

Record dst (total : nat) (done : list tnode) (p : list item) (lab hc ip : list N) : Prop := {
  d_lab : rep lab (flat_map (fun n => dlab (items n)) done ++ dlab p);
  d_hc : rep hc (flat_map (fun n => dhas (items n)) done ++ dhas p);
  d_ip : rep ip (map nterm done ++ [existsb i_term p]);
  d_llab : length lab = 4 * total;
  d_lhc : length hc = 4 * total;
  d_lip : length ip = prefixWords total
}.

Section Dense.
Variable fp : bytes -> N.
Variable c : config.

Lemma lrep_label lv ns its pos it : lrep fp c lv ns its -> nth_error (flat_map items ns ++ its) pos = Some it ->
  idx (lv_labels lv) pos = Ok (i_label it) /\ readBit (lv_hasChild lv) pos = Ok (hasc it).
Proof.
  intros R H. assert (L : pos < length (flat_map items ns ++ its)) by (apply nth_error_Some; congruence). split.
  - unfold idx. rewrite (r_labels _ _ _ _ _ R), nth_error_map, H. reflexivity.
  - destruct (r_hasc _ _ _ _ _ R) as [[W G] L']. rewrite map_length in L'. rewrite readBit_spec by lia. f_equal. rewrite G.
    apply nth_error_nth. rewrite nth_error_map, H. reflexivity.
Qed.

Lemma dlab_pos (done : list tnode) : length (flat_map (fun n => dlab (items n)) done) = length done * 256.
Proof. apply flat_map_const. intros. apply dlab_length. Qed.
Lemma dhas_pos (done : list tnode) : length (flat_map (fun n => dhas (items n)) done) = length done * 256.
Proof. apply flat_map_const. intros. apply dhas_length. Qed.

Lemma set_step lv ns its pos it total done p lab hc ip :
  lrep fp c lv ns its -> nth_error (flat_map items ns ++ its) pos = Some it -> i_term it = false -> i_label it < 256 ->
  length done < total -> dst total done p lab hc ip ->
  exists lab' hc', setLabelAndHasChild lv (length done) pos lab hc = Ok (lab', hc') /\ dst total done (p ++ [it]) lab' hc' ip.
Proof.
  intros R H T L Lt D. unfold setLabelAndHasChild.
  destruct (lrep_label lv ns its pos it R H) as [E1 E2]. rewrite E1. cbn [bind].
  destruct (set_dense (fun it l => noterm it && Nat.eqb (i_label it) l) lab (flat_map (fun n => dlab (items n)) done) p it (i_label it)) as (lab' & E3 & L3 & R3); auto.
  { intros q _. unfold noterm. rewrite T. reflexivity. }
  { apply D. } { rewrite dlab_pos, (d_llab _ _ _ _ _ _ D). lia. }
  rewrite dlab_pos in E3. rewrite E3. cbn [bind]. rewrite E2. cbn [bind].
  assert (IP : existsb i_term (p ++ [it]) = existsb i_term p) by (rewrite existsb_app; cbn [existsb]; rewrite T; now rewrite !orb_false_r).
  destruct (hasc it) eqn:HC.
  - destruct (set_dense (fun it l => noterm it && hasc it && Nat.eqb (i_label it) l) hc (flat_map (fun n => dhas (items n)) done) p it (i_label it)) as (hc' & E4 & L4 & R4); auto.
    { intros q _. unfold noterm. rewrite T, HC. reflexivity. }
    { apply D. } { rewrite dhas_pos, (d_lhc _ _ _ _ _ _ D). lia. }
    rewrite dhas_pos in E4. rewrite E4. cbn [bind]. exists lab', hc'. split; auto. constructor; auto.
    + rewrite IP. apply D.
    + rewrite L3. apply D. + rewrite L4. apply D. + apply D.
  - cbn [bind]. exists lab', hc. split; auto. constructor; auto.
    + apply (keep_dense (fun it l => noterm it && hasc it && Nat.eqb (i_label it) l)).
      * intros q _. rewrite HC, andb_false_r. reflexivity.
      * apply D.
    + rewrite IP. apply D.
    + rewrite L3. apply D. + apply D. + apply D.
Qed.

Lemma term_step total done it lab hc ip :
  i_term it = true -> length done < total -> dst total done [] lab hc ip ->
  exists ip', setBit ip (length done) = Ok ip' /\ dst total done [it] lab hc ip'.
Proof.
  intros T Lt D. destruct (rep_set ip (map nterm done) []) as (ip' & E & L & R).
  { apply D. }
  { rewrite map_length, (d_lip _ _ _ _ _ _ D). unfold prefixWords. destruct (Nat.eqb_spec (total mod 64) 0); lia. }
  rewrite map_length in E. exists ip'. split; auto. constructor.
  - apply (keep_dense (fun it l => noterm it && Nat.eqb (i_label it) l) lab _ []).
    + intros q _. unfold noterm. rewrite T. reflexivity.
    + apply D.
  - apply (keep_dense (fun it l => noterm it && hasc it && Nat.eqb (i_label it) l) hc _ []).
    + intros q _. unfold noterm. rewrite T. reflexivity.
    + apply D.
  - cbn [existsb]. rewrite T. exact R.
  - apply D. - apply D. - rewrite L. apply D.
Qed.

(** The first label of a node with at least two keys tells whether it is a
    terminator. *)
Lemma first_term n it r : nwf n -> 2 <= length (tn_kvs n) -> items n = it :: r ->
  i_term it = (Nat.eqb (i_label it) labelTerminator && negb (hasc it)).
Proof.
  intros W L2 E. pose proof (items_two n W L2) as I2. pose proof (labels_sorted n W) as S.
  destruct (i_term it) eqn:T.
  - unfold items, items_at in E. destruct (titem (tn_d n) (tn_kvs n)) as [|t ts] eqn:Et.
    + cbn [app] in E. destruct (groups (tn_d n) (nonterm (tn_d n) (tn_kvs n))); cbn [map] in E; [discriminate|].
      inversion E; subst. discriminate.
    + cbn [app] in E. inversion E; subst t. destruct (titem_facts (tn_d n) (tn_kvs n) it) as (_ & _ & F1 & _ & e & r' & _ & F2 & _).
      { rewrite Et. left. auto. }
      rewrite F1. unfold hasc. rewrite F2. reflexivity.
  - symmetry. apply andb_false_iff. left. apply Nat.eqb_neq. intros Eq.
    rewrite E in S, I2. destruct r as [|it2 r2]; [cbn in I2; lia|].
    assert (T2 : i_term it2 = false).
    { unfold items, items_at, titem in E. destruct (is_term (tn_d n) (tn_kvs n)).
      - cbn [app] in E. inversion E; subst it. discriminate.
      - cbn [app] in E. destruct (groups (tn_d n) (nonterm (tn_d n) (tn_kvs n))) as [|g [|g2 gs]]; inversion E; reflexivity. }
    cbn [filter] in S. unfold noterm at 1 2 in S. rewrite T, T2 in S. cbn [negb map] in S.
    inversion S as [|a b S1 S2]; subst. inversion S2; subst.
    assert (B : i_label it2 < 256) by (apply (label_byte n); auto; rewrite E; right; left; auto).
    unfold labelTerminator in Eq. lia.
Qed.

Lemma tail_noterm n it r : items n = it :: r -> Forall (fun x => i_term x = false) r.
Proof.
  unfold items, items_at, titem. intros E.
  assert (X : Forall (fun x => i_term x = false) (map (mkg (tn_d n)) (groups (tn_d n) (nonterm (tn_d n) (tn_kvs n))))).
  { rewrite Forall_map. apply Forall_forall. intros. reflexivity. }
  destruct (is_term (tn_d n) (tn_kvs n)); cbn [app] in E.
  - inversion E; subst. exact X.
  - rewrite E in X. now inversion X.
Qed.

Lemma isTerminator_spec lv ns its pos it : lrep fp c lv ns its -> nth_error (flat_map items ns ++ its) pos = Some it ->
  isTerminator lv pos = Ok (Nat.eqb (i_label it) labelTerminator && negb (hasc it)).
Proof. intros R H. unfold isTerminator. destruct (lrep_label lv ns its pos it R H) as [E1 E2]. rewrite E1. cbn [bind]. rewrite E2. reflexivity. Qed.

Lemma louds_read lv ns pos : lrep fp c lv ns [] -> pos < length (flat_map items ns) ->
  readBit (lv_louds lv) pos = Ok (nth pos (flat_map loudsb ns) false).
Proof.
  intros R L. destruct (r_louds _ _ _ _ _ R) as [[W G] L']. cbn [length repeat] in *. rewrite app_nil_r in *.
  rewrite (loudsb_length ns (r_wf _ _ _ _ _ R)) in L'.
  rewrite readBit_spec by lia. now rewrite G.
Qed.

Lemma louds_in done n rest q : Forall nwf (done ++ n :: rest) -> q < length (items n) ->
  nth (length (flat_map items done) + q) (flat_map loudsb (done ++ n :: rest)) false = Nat.eqb q 0.
Proof.
  intros W H. apply Forall_app in W as [W1 W2]. rewrite flat_map_app. cbn [flat_map].
  rewrite <- (loudsb_length done) by auto. rewrite nth_app_off. unfold loudsb at 1. rewrite app_nth1.
  - destruct q; [reflexivity|]. cbn [nth Nat.eqb]. destruct (Nat.lt_ge_cases q (length (items n) - 1)).
    + apply nth_repeat. + apply nth_overflow. now rewrite repeat_length.
  - cbn [length]. rewrite repeat_length. lia.
Qed.

Lemma items_at_pos (done : list tnode) n rest q : nth_error (flat_map items (done ++ n :: rest)) (length (flat_map items done) + q) =
  if Nat.ltb q (length (items n)) then nth_error (items n) q else nth_error (flat_map items rest) (q - length (items n)).
Proof.
  rewrite flat_map_app. cbn [flat_map]. rewrite nth_error_app2 by lia. replace (length (flat_map items done) + q - length (flat_map items done)) with q by lia.
  destruct (Nat.ltb_spec q (length (items n))); [apply nth_error_app1|apply nth_error_app2]; auto.
Qed.

Lemma dense_inner lv total done n rest todo : lrep fp c lv (done ++ n :: rest) [] -> length done < total ->
  forall Q P lab hc ip, items n = P ++ Q -> P <> [] -> Forall (fun x => i_term x = false) Q ->
  dst total done P lab hc ip ->
  exists lab' hc', dense_loop (length Q + todo) (length (flat_map items done) + length P) (length done) lv lab hc ip =
    dense_loop todo (length (flat_map items (done ++ [n]))) (length done) lv lab' hc' ip /\ dst total done (items n) lab' hc' ip.
Proof.
  intros R Lt. assert (Wn : nwf n) by (pose proof (r_wf _ _ _ _ _ R) as W; apply Forall_app in W as [_ W]; now inversion W).
  induction Q as [|it Q IH]; intros P lab hc ip E Pne HT D.
  - cbn [length Nat.add]. exists lab, hc. rewrite app_nil_r in E. rewrite E. split; auto.
    rewrite flat_map_app, app_length. cbn [flat_map]. rewrite app_nil_r, E. reflexivity.
  - cbn [length Nat.add dense_loop].
    assert (Lq : length P < length (items n)) by (rewrite E, app_length; cbn [length]; lia).
    pose proof (items_at_pos done n rest (length P)) as NE. destruct (Nat.ltb_spec (length P) (length (items n))); [|lia].
    rewrite E, nth_error_app2, Nat.sub_diag in NE by lia. cbn [nth_error] in NE.
    assert (LT : length (flat_map items done) + length P < length (flat_map items (done ++ n :: rest))) by (apply nth_error_Some; congruence).
    rewrite (louds_read lv (done ++ n :: rest)) by auto. cbn [bind].
    rewrite (louds_in done n rest) by (auto; apply R). destruct (Nat.eqb_spec (length P) 0) as [Z|_]; [destruct P; [congruence|cbn in Z; lia]|].
    cbn [bind]. inversion HT as [|a b T T']; subst.
    destruct (set_step lv (done ++ n :: rest) [] (length (flat_map items done) + length P) it total done P lab hc ip) as (lab1 & hc1 & E1 & D1); auto.
    { rewrite app_nil_r. exact NE. }
    { apply (label_byte n); auto. rewrite E. apply in_or_app. right. left. auto. }
    rewrite E1. cbn [bind].
    destruct (IH (P ++ [it]) lab1 hc1 ip) as (lab2 & hc2 & E2 & D2); auto.
    { rewrite <- app_assoc. exact E. } { destruct P; discriminate. }
    exists lab2, hc2. split; auto. rewrite <- E2. rewrite app_length. cbn [length]. f_equal. lia.
Qed.

Lemma dst_next total done n lab hc ip : dst total done (items n) lab hc ip -> dst total (done ++ [n]) [] lab hc ip.
Proof.
  intros D. constructor; try apply D.
  - rewrite flat_map_app. cbn [flat_map]. rewrite app_nil_r. apply (proj1 (rep_false _ _ 256)). apply D.
  - rewrite flat_map_app. cbn [flat_map]. rewrite app_nil_r. apply (proj1 (rep_false _ _ 256)). apply D.
  - rewrite map_app. cbn [map existsb]. apply (proj1 (rep_false _ _ 1)). apply D.
Qed.

(** The first item of a node. *)
Lemma first_step lv total done n rest it r lab hc ip :
  lrep fp c lv (done ++ n :: rest) [] -> 2 <= length (tn_kvs n) -> length done < total -> items n = it :: r ->
  dst total done [] lab hc ip ->
  exists lab' hc' ip',
    (forall A (k : list N -> list N -> list N -> res A), 
      (t <- isTerminator lv (length (flat_map items done)) ;;
       if t : bool then ip <- setBit ip (length done) ;; k lab hc ip
       else ' (lab, hc) <- setLabelAndHasChild lv (length done) (length (flat_map items done)) lab hc ;; k lab hc ip) = k lab' hc' ip') /\
    dst total done [it] lab' hc' ip'.
Proof.
  intros R L2 Lt E D.
  assert (Wn : nwf n) by (pose proof (r_wf _ _ _ _ _ R) as W; apply Forall_app in W as [_ W]; now inversion W).
  pose proof (items_at_pos done n rest 0) as NE. rewrite E in NE. cbn [length Nat.ltb Nat.leb nth_error] in NE. rewrite Nat.add_0_r in NE.
  rewrite <- (app_nil_r (flat_map items (done ++ n :: rest))) in NE.
  pose proof (isTerminator_spec _ _ _ _ _ R NE) as IT. rewrite <- (first_term n it r Wn L2 E) in IT.
  destruct (i_term it) eqn:T.
  - destruct (term_step total done it lab hc ip T Lt D) as (ip' & E1 & D1).
    exists lab, hc, ip'. split; auto. intros A k. rewrite IT. cbn [bind]. rewrite E1. reflexivity.
  - destruct (set_step lv (done ++ n :: rest) [] (length (flat_map items done)) it total done [] lab hc ip) as (lab1 & hc1 & E1 & D1); auto.
    { apply (label_byte n); auto. rewrite E. left. auto. }
    exists lab1, hc1, ip. split; auto. intros A k. rewrite IT. cbn [bind]. rewrite E1. reflexivity.
Qed.

Lemma dense_nodes lv total : forall rest done lab hc ip,
  lrep fp c lv (done ++ rest) [] -> Forall (fun n => 2 <= length (tn_kvs n)) rest -> length (done ++ rest) <= total ->
  done <> [] -> dst total done [] lab hc ip ->
  exists lab' hc' ip', dense_loop (length (flat_map items rest)) (length (flat_map items done)) (length done - 1) lv lab hc ip = Ok (lab', hc', ip') /\
    dst total (done ++ rest) [] lab' hc' ip'.
Proof.
  induction rest as [|n rest IH]; intros done lab hc ip R H2 Lt Dne D.
  - rewrite app_nil_r. cbn [flat_map length dense_loop]. exists lab, hc, ip. auto.
  - inversion H2 as [|a b L2 H2']; subst.
    pose proof (r_wf _ _ _ _ _ R) as W. pose proof W as W'. apply Forall_app in W' as [W1 W2]. inversion W2 as [|a b Wn Wr]; subst.
    rewrite app_length in Lt. cbn [length] in Lt.
    destruct (items n) as [|it r] eqn:E; [exfalso; now apply (items_ne n)|].
    assert (D0 : 0 < length done) by (destruct done; [congruence|cbn; lia]).
    assert (Lit : length (flat_map items (n :: rest)) = S (length r + length (flat_map items rest))).
    { cbn [flat_map]. rewrite app_length, E. reflexivity. }
    rewrite Lit. cbn [dense_loop].
    rewrite (louds_read lv (done ++ n :: rest)); auto.
    2:{ rewrite flat_map_app, app_length. rewrite Lit. lia. }
    pose proof (louds_in done n rest 0 W) as LI. rewrite Nat.add_0_r in LI. rewrite LI by (rewrite E; cbn; lia). cbn [Nat.eqb bind].
    replace (S (length done - 1)) with (length done) by lia.
    destruct (first_step lv total done n rest it r lab hc ip) as (lab1 & hc1 & ip1 & E1 & D1); auto; [lia|].
    rewrite (E1 _ (fun lab hc ip => dense_loop (length r + length (flat_map items rest)) (S (length (flat_map items done))) (length done) lv lab hc ip)).
    destruct (dense_inner lv total done n rest (length (flat_map items rest)) R) with (Q := r) (P := [it]) (lab := lab1) (hc := hc1) (ip := ip1) as (lab2 & hc2 & E2 & D2); auto.
    { lia. } { discriminate. } { now apply (tail_noterm n it r). }
    cbn [length] in E2. rewrite Nat.add_1_r in E2. rewrite E2.
    destruct (IH (done ++ [n]) lab2 hc2 ip1) as (lab3 & hc3 & ip3 & E3 & D3); auto.
    { rewrite <- app_assoc. exact R. }
    { rewrite <- app_assoc. cbn [app]. rewrite app_length. cbn [length]. lia. }
    { destruct done; discriminate. }
    { now apply dst_next. }
    exists lab3, hc3, ip3. rewrite <- app_assoc in D3. split; auto.
    rewrite <- E3. f_equal. rewrite app_length. cbn [length]. lia.
Qed.

Lemma gbit_zeros k p : gbit (repeat 0%N k) p = false.
Proof. unfold gbit. replace (nth (p / 64) (repeat 0%N k) 0%N) with 0%N; [reflexivity|]. symmetry. destruct (Nat.lt_ge_cases (p / 64) k); [apply nth_repeat|apply nth_overflow; now rewrite repeat_length]. Qed.

Lemma rep_zeros k m : rep (repeat 0%N k) (repeat false m).
Proof.
  split.
  - apply Forall_forall. intros x Hx. apply repeat_spec in Hx. subst. reflexivity.
  - intros p. rewrite gbit_zeros. destruct (Nat.lt_ge_cases p m).
    + symmetry. apply nth_repeat. + symmetry. apply nth_overflow. now rewrite repeat_length.
Qed.

Definition dense_rep (ns : list tnode) (lab hc ip : list N) : Prop :=
  rep lab (flat_map (fun n => dlab (items n)) ns) /\ length lab = 4 * length ns /\
  rep hc (flat_map (fun n => dhas (items n)) ns) /\ length hc = 4 * length ns /\
  rep ip (map nterm ns) /\ length ip = prefixWords (length ns).

Lemma buildDense_level_spec lv ns : lrep fp c lv ns [] -> ns <> [] -> Forall (fun n => 2 <= length (tn_kvs n)) ns ->
  exists lab hc ip, buildDense_level lv (repeat 0%N (denseWords (lv_nodeCount lv))) (repeat 0%N (denseWords (lv_nodeCount lv))) (repeat 0%N (prefixWords (lv_nodeCount lv))) = Ok (lab, hc, ip) /\
    dense_rep ns lab hc ip.
Proof.
  intros R Hne H2. rewrite (r_count _ _ _ _ _ R). set (total := length ns).
  assert (D : dst total [] [] (repeat 0%N (denseWords total)) (repeat 0%N (denseWords total)) (repeat 0%N (prefixWords total))).
  { constructor; cbn [flat_map app]; try (rewrite repeat_length; unfold denseWords; change (256 / 64) with 4; lia); try (rewrite repeat_length; reflexivity).
    - apply (rep_zeros _ 256). - apply (rep_zeros _ 256). - apply (rep_zeros _ 1). }
  destruct ns as [|n rest]; [congruence|]. inversion H2 as [|a b L2 H2']; subst.
  pose proof (r_wf _ _ _ _ _ R) as W. inversion W as [|a b Wn Wr]; subst.
  destruct (items n) as [|it r] eqn:E; [exfalso; now apply (items_ne n)|].
  assert (NI : numItems lv = S (length r + length (flat_map items rest))).
  { rewrite (lrep_numItems _ _ _ _ _ R), app_nil_r. cbn [flat_map]. rewrite app_length, E. reflexivity. }
  unfold buildDense_level. rewrite NI. cbn [Nat.eqb Nat.sub]. rewrite Nat.sub_0_r.
  destruct (first_step lv total [] n rest it r _ _ _ R L2 ltac:(unfold total; cbn; lia) E D) as (lab1 & hc1 & ip1 & E1 & D1).
  cbn [flat_map length] in E1.
  specialize (E1 _ (fun lab hc ip => dense_loop (length r + length (flat_map items rest)) 1 0 lv lab hc ip)).
  destruct (dense_inner lv total [] n rest (length (flat_map items rest)) R) with (Q := r) (P := [it]) (lab := lab1) (hc := hc1) (ip := ip1) as (lab2 & hc2 & E2 & D2); auto.
  { unfold total; cbn; lia. } { discriminate. } { now apply (tail_noterm n it r). }
  cbn [flat_map length Nat.add app] in E2. cbn beta in E1. rewrite E2 in E1.
  destruct (dense_nodes lv total rest [n] lab2 hc2 ip1) as (lab3 & hc3 & ip3 & E3 & D3); auto.
  { discriminate. } { now apply (dst_next total [] n). }
  exists lab3, hc3, ip3. split.
  - cbn [length flat_map app Nat.sub] in E3. cbn [flat_map app] in E1. rewrite E3 in E1. rewrite <- E1.
    destruct (isTerminator lv 0) as [t| |]; cbn [bind]; auto. destruct t.
    + destruct (setBit _ 0); reflexivity.
    + destruct (setLabelAndHasChild _ _ _ _ _) as [[? ?]| |]; reflexivity.
  - cbn [app] in D3. destruct D3 as [A1 A2 A3 A4 A5 A6]. split; [exact (proj2 (rep_false _ _ 256) A1)|]. split; [exact A4|]. split; [exact (proj2 (rep_false _ _ 256) A2)|].
    split; [exact A5|]. split; [exact (proj2 (rep_false _ _ 1) A3)|exact A6].
Qed.
End Dense.
