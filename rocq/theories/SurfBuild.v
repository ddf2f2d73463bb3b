(** * The builder's levels represent the abstract trie. *)
From Verif Require Import Base BitsModel BitsFacts VecModel VecProofs VecProofs2 SurfModel SurfTrie SurfSuffix.
Ltac Zify.zify_post_hook ::= Z.div_mod_to_equations.

(* ------------------------------------------------------------------ *)
(** ** Words growing by one bit *)

Lemma gbit_app0 ws p : gbit (ws ++ [0%N]) p = gbit ws p.
Proof.
  unfold gbit. destruct (Nat.lt_ge_cases (p / 64) (length ws)) as [H|H].
  - now rewrite app_nth1.
  - rewrite app_nth2 by auto. rewrite (nth_overflow ws) by auto.
    destruct (p / 64 - length ws) as [|[|k]]; reflexivity.
Qed.

Lemma rep_app0 ws B : rep ws B -> rep (ws ++ [0%N]) B.
Proof.
  intros [H1 H2]. split.
  - apply Forall_app. split; auto. constructor; auto. reflexivity.
  - intros p. rewrite gbit_app0. apply H2.
Qed.

Lemma nth_app_false (B : list bool) k p : nth p (B ++ repeat false k) false = nth p B false.
Proof.
  destruct (Nat.lt_ge_cases p (length B)) as [H|H].
  - now rewrite app_nth1.
  - rewrite app_nth2 by auto. rewrite (nth_overflow B) by auto.
    destruct (Nat.lt_ge_cases (p - length B) k).
    + apply nth_repeat.
    + apply nth_overflow. rewrite repeat_length. auto.
Qed.

Lemma rep_false ws B k : rep ws B <-> rep ws (B ++ repeat false k).
Proof.
  unfold rep. split; intros [H1 H2]; split; auto; intros p; specialize (H2 p).
  - now rewrite nth_app_false.
  - now rewrite nth_app_false in H2.
Qed.

Lemma rep_set ws A C : rep ws (A ++ false :: C) -> length A < 64 * length ws ->
  exists ws', setBit ws (length A) = Ok ws' /\ length ws' = length ws /\ rep ws' (A ++ true :: C).
Proof.
  intros [H1 H2] H. destruct (setBit_spec ws (length A) H H1) as (ws' & E & L & W & G).
  exists ws'. split; auto. split; auto. split; auto. intros p. rewrite G, H2.
  destruct (Nat.eqb_spec p (length A)) as [->|Hne]; cbn [orb].
  - rewrite app_nth2, Nat.sub_diag by lia. reflexivity.
  - destruct (Nat.lt_ge_cases p (length A)).
    + now rewrite !app_nth1 by auto.
    + rewrite !app_nth2 by lia. destruct (p - length A) as [|m] eqn:Em; [lia|]. reflexivity.
Qed.

Definition wrep (ws : list N) (B : list bool) : Prop := rep ws B /\ length ws = length B / 64 + 1.

Definition grow (n : nat) (ws : list N) : list N := if Nat.eqb (n mod 64) 0 then ws ++ [0%N] else ws.

Lemma wrep_grow ws B : wrep ws B -> wrep (grow (length B + 1) ws) (B ++ [false]).
Proof.
  intros [H1 H2]. unfold grow. split.
  - apply (rep_false _ B 1). destruct (Nat.eqb _ 0); auto. now apply rep_app0.
  - rewrite app_length. cbn [length]. destruct (Nat.eqb_spec ((length B + 1) mod 64) 0).
    + rewrite app_length. cbn [length]. lia.
    + lia.
Qed.

Lemma wrep_level ws B : wrep ws B -> level_ok ws (length B).
Proof.
  intros [[H1 H2] H3]. split; auto. split; [lia|]. intros i Hi. rewrite H2. now apply nth_overflow.
Qed.

Lemma rep_bits_of ws B : rep ws B -> bits_of ws (length B) = B.
Proof.
  intros [_ H]. apply list_eq_nth_error. intros i.
  destruct (Nat.lt_ge_cases i (length B)) as [L|L].
  - rewrite (nth_error_nth' B false L). rewrite (nth_error_nth' _ false) by (now rewrite bits_of_length).
    f_equal. rewrite nth_bits_of. destruct (Nat.ltb_spec i (length B)); [apply H|lia].
  - rewrite !(proj2 (nth_error_None _ _)); auto. now rewrite bits_of_length.
Qed.

(* ------------------------------------------------------------------ *)
(** ** The state of a level *)

Section Build.
Variable fp : bytes -> N.
Variable c : config.
Hypothesis Hlen : c_suffixLen c <= 64.
Notation slen := (c_suffixLen c).

Definition sufv (it : item) : N := sfx fp (c_type c) (c_hashLen c) (c_realLen c) (fst (i_kv it)) (i_depth it + 1).
Definition sufbits (vs : list N) : list bool := flat_map (fun v => map (tb v) (seq 0 slen)) vs.
Definition ivalue (it : item) : bytes := firstn (c_valueSize c) (snd (i_kv it)).
Definition loudsb (n : tnode) : list bool := true :: repeat false (length (items n) - 1).

Definition sxrep (ss : list N) (vs : list N) : Prop :=
  slen = 0 \/ (rep ss (sufbits vs) /\ length ss = numWords (length vs * slen)).

Record lrep (lv : level) (ns : list tnode) (its : list item) : Prop := {
  r_labels : lv_labels lv = map i_label (flat_map items ns ++ its);
  r_hasc : wrep (lv_hasChild lv) (map hasc (flat_map items ns ++ its));
  r_louds : wrep (lv_louds lv) (flat_map loudsb ns ++ repeat false (length its));
  r_suf : sxrep (lv_suffixes lv) (map sufv (filter leafb (flat_map items ns ++ its)));
  r_sufn : lv_suffixCount lv = length (filter leafb (flat_map items ns ++ its));
  r_vals : lv_values lv = flat_map ivalue (filter leafb (flat_map items ns ++ its));
  r_hasp : wrep (lv_hasPrefix lv) (map (fun n => nonempty (nprefix n)) ns);
  r_pre : lv_prefixes lv = filter nonempty (map nprefix ns);
  r_count : lv_nodeCount lv = length ns;
  r_wf : Forall nwf ns
}.

Lemma loudsb_length ns : Forall nwf ns -> length (flat_map loudsb ns) = length (flat_map items ns).
Proof using. clear Hlen.
  induction 1 as [|n ns W _ IH]; [reflexivity|]. cbn [flat_map]. rewrite !app_length, IH. f_equal.
  unfold loudsb. cbn [length]. rewrite repeat_length. pose proof (items_pos n W). lia.
Qed.

Lemma lrep_empty : lrep emptyLevel [] [].
Proof using. clear Hlen.
  constructor; cbn; auto.
  - split; [|reflexivity]. split; [repeat constructor|]. intros p. unfold gbit. destruct (p / 64) as [|[|k]]; destruct p; reflexivity.
  - split; [|reflexivity]. split; [repeat constructor|]. intros p. unfold gbit. destruct (p / 64) as [|[|k]]; destruct p; reflexivity.
  - right. split; [|reflexivity]. split; [constructor|]. intros p. unfold gbit. rewrite !nth_overflow by (cbn; lia). reflexivity.
  - split; [|reflexivity]. split; [repeat constructor|]. intros p. unfold gbit. destruct (p / 64) as [|[|k]]; destruct p; reflexivity.
Qed.

Lemma lrep_numItems lv ns its : lrep lv ns its -> numItems lv = length (flat_map items ns ++ its).
Proof using. clear Hlen. intros R. unfold numItems. rewrite (r_labels _ _ _ R). apply map_length. Qed.

(** Writing a suffix. *)
Lemma sufbits_length vs : length (sufbits vs) = length vs * slen.
Proof using. clear Hlen.
  induction vs as [|v vs IH]; [reflexivity|]. unfold sufbits in *. cbn [flat_map length]. rewrite app_length, map_length, seq_length. lia.
Qed.

Lemma set_nth_app {A} (l l' : list A) i x : i < length l -> set_nth (l ++ l') i x = set_nth l i x ++ l'.
Proof using. clear Hlen. revert i. induction l as [|h t IH]; intros [|i] H; cbn in *; try lia; auto. rewrite IH by lia. reflexivity. Qed.

Lemma set_nth_app_end {A} (l : list A) y x : set_nth (l ++ [y]) (length l) x = l ++ [x].
Proof using. clear Hlen. induction l; cbn; auto. now rewrite IHl. Qed.

Lemma write_suffix ss vs s :
  sxrep ss vs -> (s < 2 ^ N.of_nat slen)%N ->
  exists ss',
    (let pos := length vs * slen in
     let ss := if Nat.eqb pos (length ss * 64) then ss ++ [0%N] else ss in
     ss <- or_at ss (pos / 64) (shl64 s (N.of_nat (pos mod 64))) ;;
     Ok (if Nat.ltb (64 - pos mod 64) slen then ss ++ [shrv s (N.of_nat (64 - pos mod 64))] else ss)) = Ok ss' /\
    sxrep ss' (vs ++ [s]).
Proof.
  intros HR Hs. cbv zeta. destruct (Nat.eq_dec slen 0) as [Z|NZ].
  { rewrite Z, Nat.mul_0_r. cbn [Nat.div Nat.modulo Nat.divmod fst snd Nat.sub].
    set (ss1 := if Nat.eqb 0 (length ss * 64) then ss ++ [0%N] else ss).
    assert (L : 0 < length ss1).
    { unfold ss1. destruct (Nat.eqb_spec 0 (length ss * 64)); [rewrite app_length; cbn; lia|lia]. }
    rewrite (or_at_spec ss1 0) by auto. cbn [bind]. eexists. split; [reflexivity|]. now left. }
  destruct HR as [HR|[HR HL]]; [lia|].
  set (pos := length vs * slen) in *. set (sh := pos mod 64). set (wid := pos / 64).
  set (ss1 := if Nat.eqb pos (length ss * 64) then ss ++ [0%N] else ss).
  assert (R1 : rep ss1 (sufbits vs)).
  { unfold ss1. destruct (Nat.eqb _ _); auto. now apply rep_app0. }
  assert (L1 : length ss1 = wid + 1).
  { unfold ss1, numWords in *. destruct (Nat.eqb_spec pos (length ss * 64)).
    - rewrite app_length. cbn [length]. destruct (Nat.eqb_spec (pos mod 64) 0); lia.
    - destruct (Nat.eqb_spec (pos mod 64) 0); lia. }
  set (cross := Nat.ltb (64 - sh) slen).
  set (dst := if cross then ss1 ++ [0%N] else ss1).
  assert (LB : length (sufbits vs) = 64 * wid + sh) by (rewrite sufbits_length; unfold wid, sh; fold pos; lia).
  assert (Rd : rep dst (sufbits vs)) by (unfold dst; destruct cross; auto; now apply rep_app0).
  destruct (rep_write dst wid sh slen s (sufbits vs) Rd LB) as (dst' & E & Ld & R').
  - unfold sh. lia.
  - lia.
  - exact Hs.
  - unfold dst, cross. destruct (Nat.ltb_spec (64 - sh) slen); [rewrite app_length; cbn [length]|]; unfold sh in *; lia.
  - exists dst'. split.
    + rewrite <- E. unfold dst, cross. destruct (Nat.ltb_spec (64 - sh) slen) as [C|C].
      * destruct (Nat.ltb_spec 64 (sh + slen)) as [_|C']; [|unfold sh in *; lia].
        rewrite (or_at_spec ss1) by lia. rewrite (or_at_spec (ss1 ++ [0%N])) by (rewrite app_length; lia). cbn [bind].
        rewrite app_nth1 by lia. rewrite set_nth_app by lia.
        set (ss2 := set_nth ss1 wid _). assert (L2 : length ss2 = wid + 1) by (unfold ss2; now rewrite set_nth_length).
        rewrite (or_at_spec (ss2 ++ [0%N])) by (rewrite app_length; cbn [length]; lia).
        replace (S wid) with (length ss2) by lia. rewrite set_nth_app_end. rewrite app_nth2, Nat.sub_diag by lia. cbn [nth].
        f_equal. f_equal. f_equal. rewrite N.lor_0_l.
        unfold shrv. destruct (N.ltb_spec (N.of_nat (64 - sh)) 64); [reflexivity|].
        replace sh with 0 in * by lia. lia.
      * destruct (Nat.ltb_spec 64 (sh + slen)) as [C'|_]; [lia|]. reflexivity.
    + right. split.
      * unfold sufbits. rewrite flat_map_app. cbn [flat_map]. rewrite app_nil_r. exact R'.
      * rewrite Ld, app_length. cbn [length]. unfold dst, cross, numWords.
        replace ((length vs + 1) * slen) with (pos + slen) by lia.
        destruct (Nat.ltb_spec (64 - sh) slen); [rewrite app_length; cbn [length]|];
        destruct (Nat.eqb_spec ((pos + slen) mod 64) 0); unfold sh, wid in *; lia.
Qed.

Lemma insertSuffix_spec key d lv vs :
  sxrep (lv_suffixes lv) vs -> lv_suffixCount lv = length vs -> wf_bytes key = true ->
  exists ss', insertSuffix fp c key d lv = Ok (set_suffixes lv ss' (lv_suffixCount lv + 1)) /\
    sxrep ss' (vs ++ [sfx fp (c_type c) (c_hashLen c) (c_realLen c) key (d + 1)]).
Proof.
  intros HR HC Hw. unfold insertSuffix. rewrite (sfx_spec fp). cbn [bind].
  destruct (write_suffix (lv_suffixes lv) vs _ HR (sfx_bound fp (c_type c) (c_hashLen c) (c_realLen c) key (d + 1) Hw Hlen)) as (ss' & E & R).
  exists ss'. split; auto. rewrite HC. cbv zeta in *. 
  destruct (or_at _ _ _) as [x| |]; cbn [bind] in *; try discriminate. apply Ok_eq in E. rewrite E. reflexivity.
Qed.

Lemma slice_firstn {A} (l : list A) n : n <= length l -> slice l 0 n = Ok (firstn n l).
Proof using. clear Hlen. intros H. unfold slice. cbn [Nat.leb andb skipn]. rewrite Nat.sub_0_r. destruct (Nat.leb_spec n (length l)); [reflexivity|lia]. Qed.

(** ** Appending items *)

Definition item_ok (it : item) : Prop :=
  hasc it = false -> wf_bytes (fst (i_kv it)) = true /\ c_valueSize c <= length (snd (i_kv it)).

(** What appending an item does to the fields, with the words already grown. *)
Lemma append_leaf lv ns its it ss' lv' :
  lrep lv ns its -> hasc it = false -> 
  sxrep ss' (map sufv (filter leafb (flat_map items ns ++ its)) ++ [sufv it]) ->
  lv_labels lv' = lv_labels lv ++ [i_label it] ->
  lv_hasChild lv' = grow (numItems lv + 1) (lv_hasChild lv) ->
  lv_louds lv' = grow (numItems lv + 1) (lv_louds lv) ->
  lv_suffixes lv' = ss' -> lv_suffixCount lv' = lv_suffixCount lv + 1 ->
  lv_values lv' = lv_values lv ++ ivalue it ->
  lv_hasPrefix lv' = lv_hasPrefix lv -> lv_prefixes lv' = lv_prefixes lv -> lv_nodeCount lv' = lv_nodeCount lv ->
  lrep lv' ns (its ++ [it]).
Proof.
  intros R Hc Hs E1 E2 E3 E4 E5 E6 E7 E8 E9. pose proof (lrep_numItems _ _ _ R) as HN.
  assert (F : filter leafb [it] = [it]) by (cbn; unfold leafb; rewrite Hc; reflexivity).
  constructor.
  - rewrite E1, (r_labels _ _ _ R), app_assoc, (map_app _ (_ ++ _)). reflexivity.
  - rewrite E2, app_assoc, (map_app _ (_ ++ _)). cbn [map]. rewrite Hc. rewrite HN.
    rewrite <- (map_length hasc). apply wrep_grow. apply R.
  - rewrite E3, HN, (app_length its). cbn [length]. rewrite repeat_app, app_assoc. cbn [repeat].
    replace (length (flat_map items ns ++ its)) with (length (flat_map loudsb ns ++ repeat false (length its))).
    + apply wrep_grow. apply R.
    + rewrite !app_length, repeat_length. rewrite (loudsb_length ns (r_wf _ _ _ R)). reflexivity.
  - rewrite E4, app_assoc, (filter_app _ (_ ++ _)), map_app, F. exact Hs.
  - rewrite E5, (r_sufn _ _ _ R), app_assoc, (filter_app _ (_ ++ _)), app_length, F. reflexivity.
  - rewrite E6, (r_vals _ _ _ R), app_assoc, (filter_app _ (_ ++ _)), flat_map_app, F. cbn [flat_map]. rewrite app_nil_r. reflexivity.
  - rewrite E7. apply R.
  - rewrite E8. apply R.
  - rewrite E9. apply R.
  - apply R.
Qed.

Lemma addTerminator_spec lv ns its e d :
  lrep lv ns its -> wf_bytes (fst e) = true -> c_valueSize c <= length (snd e) ->
  exists lv', addTerminator fp c e d lv = Ok lv' /\ lrep lv' ns (its ++ [mkItem labelTerminator true d [e]]).
Proof.
  intros R Hw Hv. unfold addTerminator.
  set (lv1 := set_lastTerm (set_labels lv (lv_labels lv ++ [labelTerminator])) true).
  destruct (insertSuffix_spec (fst e) d lv1 _ (r_suf _ _ _ R)) as (ss' & E & Hs).
  { cbn [lv1 set_lastTerm set_labels lv_suffixCount]. rewrite map_length. apply R. } { exact Hw. }
  rewrite E. cbn [bind]. unfold insertValue. rewrite slice_firstn by auto. cbn [bind].
  eexists. split; [reflexivity|].
  apply (append_leaf lv ns its (mkItem labelTerminator true d [e]) ss'); auto;
    unfold moveToNextItemSlot, grow, numItems; cbn [lv1 set_lastTerm set_labels set_suffixes set_values set_bits lv_labels lv_hasChild lv_louds lv_suffixes lv_suffixCount lv_values lv_hasPrefix lv_prefixes lv_nodeCount];
    rewrite ?app_length; cbn [length]; destruct (Nat.eqb _ 0); reflexivity.
Qed.

Lemma addLeaf_spec lv ns its e b d :
  lrep lv ns its -> wf_bytes (fst e) = true -> c_valueSize c <= length (snd e) ->
  exists lv', addLeaf fp c e b d lv = Ok lv' /\ lrep lv' ns (its ++ [mkItem b false d [e]]).
Proof.
  intros R Hw Hv. unfold addLeaf.
  set (lv1 := moveToNextItemSlot (set_labels lv (lv_labels lv ++ [b]))).
  assert (F : lv_suffixes lv1 = lv_suffixes lv /\ lv_suffixCount lv1 = lv_suffixCount lv).
  { unfold lv1, moveToNextItemSlot. destruct (Nat.eqb _ 0); auto. }
  destruct F as [F1 F2].
  destruct (insertSuffix_spec (fst e) d lv1 (map sufv (filter leafb (flat_map items ns ++ its)))) as (ss' & E & Hs).
  { rewrite F1. apply R. } { rewrite F2, map_length. apply R. } { exact Hw. }
  rewrite E. cbn [bind]. unfold insertValue. rewrite slice_firstn by auto. cbn [bind].
  eexists. split; [reflexivity|].
  apply (append_leaf lv ns its (mkItem b false d [e]) ss'); auto;
    cbn [set_suffixes set_values lv_labels lv_hasChild lv_louds lv_suffixes lv_suffixCount lv_values lv_hasPrefix lv_prefixes lv_nodeCount];
    unfold lv1, moveToNextItemSlot, grow, numItems; cbn [set_labels lv_labels];
    rewrite ?app_length; cbn [length]; destruct (Nat.eqb _ 0); reflexivity.
Qed.

Lemma addInner_spec lv ns its b d g :
  lrep lv ns its -> 2 <= length g ->
  exists lv', addInner b lv = Ok lv' /\ lrep lv' ns (its ++ [mkItem b false d g]).
Proof.
  intros R Hg. unfold addInner. pose proof (lrep_numItems _ _ _ R) as HN.
  set (lv1 := moveToNextItemSlot (set_labels lv (lv_labels lv ++ [b]))).
  set (it := mkItem b false d g).
  assert (HH : hasc it = true) by (unfold hasc, it; cbn [i_grp]; apply Nat.ltb_lt; lia).
  assert (F : lv_labels lv1 = lv_labels lv ++ [b] /\ lv_hasChild lv1 = grow (numItems lv + 1) (lv_hasChild lv) /\
    lv_louds lv1 = grow (numItems lv + 1) (lv_louds lv) /\ lv_suffixes lv1 = lv_suffixes lv /\ lv_suffixCount lv1 = lv_suffixCount lv /\
    lv_values lv1 = lv_values lv /\ lv_hasPrefix lv1 = lv_hasPrefix lv /\ lv_prefixes lv1 = lv_prefixes lv /\ lv_nodeCount lv1 = lv_nodeCount lv).
  { unfold lv1, moveToNextItemSlot, grow, numItems. cbn [set_labels lv_labels]. rewrite app_length. cbn [length].
    destruct (Nat.eqb _ 0); repeat split. }
  destruct F as (F1 & F2 & F3 & F4 & F5 & F6 & F7 & F8 & F9).
  assert (HN1 : numItems lv1 = numItems lv + 1).
  { unfold numItems. rewrite F1, app_length. reflexivity. }
  rewrite HN1. unfold sub_chk. destruct (Nat.leb_spec 1 (numItems lv + 1)); [|lia]. cbn [bind].
  replace (numItems lv + 1 - 1) with (numItems lv) by lia.
  pose proof (wrep_grow _ _ (r_hasc _ _ _ R)) as [W1 W2]. rewrite map_length, <- HN in W1, W2.
  rewrite <- F2 in W1, W2.
  destruct (rep_set (lv_hasChild lv1) (map hasc (flat_map items ns ++ its)) []) as (h & E & L & R').
  { exact W1. } { rewrite W2, app_length. cbn [length]. lia. }
  rewrite map_length, <- HN in E. rewrite E. cbn [bind]. eexists. split; [reflexivity|].
  assert (FL : filter leafb [it] = []) by (cbn; unfold leafb; rewrite HH; reflexivity).
  constructor; cbn [set_bits lv_labels lv_hasChild lv_louds lv_suffixes lv_suffixCount lv_values lv_hasPrefix lv_prefixes lv_nodeCount];
    rewrite ?app_assoc, ?(filter_app _ (_ ++ _) [it]), ?FL, ?app_nil_r.
  - rewrite F1, (r_labels _ _ _ R), (map_app _ (_ ++ _) [it]). reflexivity.
  - rewrite (map_app _ (_ ++ _) [it]). cbn [map]. rewrite HH. split; auto. rewrite L, W2. rewrite !app_length. reflexivity.
  - rewrite F3, HN, (app_length its). cbn [length]. rewrite repeat_app, app_assoc. cbn [repeat].
    replace (length (flat_map items ns ++ its)) with (length (flat_map loudsb ns ++ repeat false (length its))).
    + apply wrep_grow. apply R.
    + rewrite !app_length, repeat_length. rewrite (loudsb_length ns (r_wf _ _ _ R)). reflexivity.
  - rewrite F4. apply R.
  - rewrite F5. apply R.
  - rewrite F6. apply R.
  - rewrite F7. apply R.
  - rewrite F8. apply R.
  - rewrite F9. apply R.
  - apply R.
Qed.

Lemma finishNode_spec lv ns n :
  lrep lv ns (items n) -> nwf n ->
  exists lv', finishNode (nprefix n) (length (flat_map items ns)) lv = Ok lv' /\ lrep lv' (ns ++ [n]) [].
Proof.
  intros R W. unfold finishNode.
  set (ne := nonempty (nprefix n)).
  pose proof (wrep_grow _ _ (r_hasp _ _ _ R)) as [P1 P2].
  assert (X : exists h, (match nprefix n with
         | [] => Ok lv
         | _ => h <- setBit (lv_hasPrefix lv) (lv_nodeCount lv) ;;
                Ok (insertPrefix (nprefix n) (set_prefix lv h (lv_prefixes lv)))
         end) = Ok (set_prefix lv h (filter nonempty (map nprefix (ns ++ [n])))) /\
      rep h (map (fun n => nonempty (nprefix n)) ns ++ [ne]) /\ length h = length (lv_hasPrefix lv)).
  { pose proof (r_hasp _ _ _ R) as [Q1 Q2]. rewrite map_app, filter_app. cbn [map filter]. fold ne. unfold ne in *.
    destruct (nprefix n) as [|x p] eqn:Ep; cbn [nonempty].
    - exists (lv_hasPrefix lv). rewrite app_nil_r, <- (r_pre _ _ _ R). split; [destruct lv; reflexivity|]. split; auto.
      exact (proj1 (rep_false _ _ 1) Q1).
    - destruct (rep_set (lv_hasPrefix lv) (map (fun n => nonempty (nprefix n)) ns) []) as (h & E & L & R').
      { exact (proj1 (rep_false _ _ 1) Q1). } { lia. }
      rewrite map_length, <- (r_count _ _ _ R) in E. exists h. rewrite E. cbn [bind]. split; auto.
      rewrite <- (r_pre _ _ _ R). reflexivity. }
  destruct X as (h & E & Rh & Lh). rewrite E. cbn [bind].
  cbn [set_prefix lv_louds].
  pose proof (r_louds _ _ _ R) as [L1 L2]. pose proof (items_pos n W) as IP.
  pose proof (loudsb_length ns (r_wf _ _ _ R)) as LL.
  destruct (rep_set (lv_louds lv) (flat_map loudsb ns) (repeat false (length (items n) - 1))) as (l & El & Ll & Rl).
  { replace (length (items n)) with (S (length (items n) - 1)) in L1 by lia. exact L1. }
  { rewrite app_length, repeat_length in L2. lia. }
  rewrite LL in El. rewrite El. cbn [bind]. eexists. split; [reflexivity|].
  constructor; cbn [set_nodeCount set_bits set_prefix lv_labels lv_hasChild lv_louds lv_suffixes lv_suffixCount lv_values lv_hasPrefix lv_prefixes lv_nodeCount length repeat];
    rewrite ?app_nil_r, ?flat_map_app; cbn [flat_map]; rewrite ?app_nil_r.
  - apply R.
  - apply R.
  - split; [exact Rl|]. rewrite Ll, L2. rewrite !app_length, repeat_length. f_equal. f_equal. unfold loudsb. cbn [length]. rewrite repeat_length. lia.
  - apply R.
  - apply R.
  - apply R.
  - rewrite map_app. cbn [map]. fold ne. rewrite (r_count _ _ _ R).
    rewrite map_length in P2. fold (grow (length ns + 1) h). split.
    + unfold grow. destruct (Nat.eqb _ 0); auto. now apply rep_app0.
    + rewrite app_length, map_length. cbn [length]. rewrite app_length, map_length in P2. cbn [length] in P2. rewrite <- P2.
      unfold grow. destruct (Nat.eqb _ 0); rewrite ?app_length; cbn [length]; lia.
  - reflexivity.
  - rewrite (r_count _ _ _ R), app_length. reflexivity.
  - apply Forall_app. split; [apply R|auto].
Qed.

(* ------------------------------------------------------------------ *)
(** ** buildNodes *)

Definition lreps (ls : list level) (NSS : list (list tnode)) : Prop := Forall2 (fun lv ns => lrep lv ns []) ls NSS.

Record kok (M d : nat) (kvs : list kv) : Prop := {
  k_ne : kvs <> [];
  k_inc : increasing (map fst kvs);
  k_byte : Forall (fun e => wf_bytes (fst e) = true) kvs;
  k_share : share d kvs;
  k_val : Forall (fun e => c_valueSize c <= length (snd e)) kvs;
  k_max : Forall (fun e => length (fst e) <= M) kvs
}.

Lemma idx_mid {A} (pre : list A) x post i : i = length pre -> idx (pre ++ x :: post) i = Ok x.
Proof using. clear Hlen. intros ->. unfold idx. rewrite nth_error_app2, Nat.sub_diag by lia. reflexivity. Qed.

Lemma set_nth_mid {A} (pre : list A) x y post : set_nth (pre ++ x :: post) (length pre) y = pre ++ y :: post.
Proof using. clear Hlen. induction pre; cbn; auto. now rewrite IHpre. Qed.

Lemma upd_level_mid pre lv post i f lv' : i = length pre -> f lv = Ok lv' ->
  upd_level (pre ++ lv :: post) i f = Ok (pre ++ lv' :: post).
Proof using. clear Hlen.
  intros E F. unfold upd_level. rewrite idx_mid by auto. cbn [bind]. rewrite F. cbn [bind]. unfold upd.
  rewrite app_length. cbn [length]. destruct (Nat.ltb_spec i (length pre + S (length post))); [|lia].
  subst i. now rewrite set_nth_mid.
Qed.

Lemma idx_byte (e : kv) d : d < length (fst e) -> idx (fst e) d = Ok (kbyte d e).
Proof using. clear Hlen. intros H. apply idx_in. auto. Qed.

(** What the recursive call is assumed to do. *)
Definition rec_ok (rec : list kv -> nat -> nat -> nat -> list level -> res (list level)) (M d i : nat) : Prop :=
  forall sub ls pre post NSS k, kok M (S d) sub -> 2 <= length sub -> length sub <= k ->
    ls = pre ++ post -> length pre = i -> lreps post NSS ->
    exists post', rec sub (d + 1) (d + 1) i ls = Ok (pre ++ post') /\ lreps post' (merge NSS (blevels k [mknode sub (S d)])).

Lemma kok_sub M d kvs sub : kok M d kvs -> sub <> [] -> (exists a b, kvs = a ++ sub ++ b) ->
  kok M d sub.
Proof.
  intros K Hne (a & b & E). 
  assert (I : incl sub kvs) by (subst kvs; intros x Hx; apply in_or_app; right; apply in_or_app; now left).
  constructor; auto.
  - pose proof (k_inc _ _ _ K) as Hi. rewrite E, !map_app in Hi.
    apply increasing_app in Hi. destruct Hi as (_ & Hi & _). apply increasing_app in Hi. apply Hi.
  - pose proof (k_byte _ _ _ K) as H. rewrite Forall_forall in *. auto.
  - eapply share_sub; [apply K|auto].
  - pose proof (k_val _ _ _ K) as H. rewrite Forall_forall in *. auto.
  - pose proof (k_max _ _ _ K) as H. rewrite Forall_forall in *. auto.
Qed.

Lemma kok_step M d kvs b : kok M d kvs -> Forall (fun e => d < length (fst e)) kvs ->
  Forall (fun e => kbyte d e = b) kvs -> kok M (S d) kvs.
Proof.
  intros K L B. constructor; try apply K. apply (share_step d kvs b); try apply K; auto.
  now rewrite <- Forall_forall.
Qed.

Lemma group_loop_spec rec M d i ns0 kvs k :
  kok M d kvs -> rec_ok rec M d (S i) -> length kvs <= k ->
  forall rest preK cur b lv its pre post NSS gs ge todo,
  kvs = preK ++ cur ++ rest -> cur <> [] -> Forall (fun e => kbyte d e = b) cur ->
  Forall (fun e => d < length (fst e)) (cur ++ rest) ->
  (preK = [] -> length kvs <> 1 -> length (emit d b cur rest) <> 1) ->
  gs = length preK -> ge = length preK + length cur -> todo = length rest + 1 ->
  length pre = i -> lrep lv ns0 its -> lreps post NSS ->
  exists lv' post',
    group_loop fp rec c kvs d i todo gs ge (pre ++ lv :: post) = Ok (Some (pre ++ lv' :: post')) /\
    lrep lv' ns0 (its ++ map (mkg d) (emit d b cur rest)) /\
    lreps post' (merge NSS (blevels k (map mkchild (filter hasc (map (mkg d) (emit d b cur rest)))))).
Proof.
  intros K HR Hk rest. induction rest as [|e r IH]; intros preK cur b lv its pre post NSS gs ge todo E Hne Hb Hl Hone Egs Ege Etodo Hpre R Rs.
  all: destruct cur as [|e0 cur0]; [congruence|]; remember (e0 :: cur0) as cur eqn:Ecur.
  all: assert (He0 : idx kvs gs = Ok e0) by (rewrite E, Ecur; cbn [app]; apply idx_mid; auto).
  all: assert (L0 : d < length (fst e0)) by (rewrite Forall_forall in Hl; apply Hl; rewrite Ecur; left; auto).
  all: assert (B0 : kbyte d e0 = b) by (rewrite Forall_forall in Hb; apply Hb; rewrite Ecur; left; auto).
  all: assert (ADD : exists lv1 post1,
        (if Nat.eqb (ge - gs) 1 then upd_level (pre ++ lv :: post) i (addLeaf fp c e0 b d)
         else ls <- upd_level (pre ++ lv :: post) i (addInner b) ;;
              sub <- slice kvs gs ge ;; rec sub (d + 1) (d + 1) (i + 1) ls) = Ok (pre ++ lv1 :: post1) /\
        lrep lv1 ns0 (its ++ [mkg d (b, cur)]) /\
        lreps post1 (merge NSS (blevels k (map mkchild (filter hasc [mkg d (b, cur)]))))).
  1,3: destruct (Nat.eqb_spec (ge - gs) 1) as [E1|E1];
    [ assert (cur0 = []) by (rewrite Ecur in Ege; destruct cur0; auto; cbn [length] in *; lia); subst cur0;
      assert (IN : In e0 kvs) by (rewrite E, Ecur; apply in_or_app; right; left; auto);
      destruct (addLeaf_spec lv ns0 its e0 b d R) as (lv' & E2 & R2);
      [ pose proof (k_byte _ _ _ K) as HH; rewrite Forall_forall in HH; auto
      | pose proof (k_val _ _ _ K) as HH; rewrite Forall_forall in HH; auto
      | exists lv', post; split; [apply upd_level_mid; auto|]; rewrite Ecur; split; [exact R2|];
        cbn [filter]; unfold hasc at 1, mkg at 1; cbn [i_grp snd length Nat.ltb Nat.leb map];
        replace (blevels k []) with (@nil (list tnode)) by (destruct k; reflexivity); rewrite merge_nil_r; auto ]
    | assert (C2 : 2 <= length cur) by (rewrite Ecur in *; cbn [length] in *; lia);
      destruct (addInner_spec lv ns0 its b d cur R C2) as (lv' & E2 & R2);
      rewrite (upd_level_mid _ _ _ _ _ lv') by auto; cbn [bind];
      assert (SL : slice kvs gs ge = Ok cur)
        by (unfold slice; rewrite E, !app_length, Egs, Ege; destruct (Nat.leb_spec (length preK) (length preK + length cur)); [|lia];
            match goal with |- context [Nat.leb ?a ?b] => destruct (Nat.leb_spec a b); [|lia] end;
            cbn [andb]; f_equal; rewrite skipn_app, skipn_all, Nat.sub_diag; cbn [skipn app];
            replace (length preK + length cur - length preK) with (length cur) by lia;
            rewrite firstn_app, firstn_all, Nat.sub_diag; cbn [firstn]; apply app_nil_r);
      rewrite SL; cbn [bind];
      destruct (HR cur (pre ++ lv' :: post) (pre ++ [lv']) post NSS k) as (post' & E3 & R3);
      [ apply (kok_step M d cur b);
        [ apply (kok_sub M d kvs); auto; eexists _, _; exact E
        | apply Forall_app in Hl; apply Hl | exact Hb ]
      | exact C2
      | rewrite E, !app_length in Hk; lia
      | rewrite <- app_assoc; reflexivity
      | rewrite app_length; cbn [length]; lia
      | exact Rs
      | exists lv', post'; replace (i + 1) with (S i) by lia; rewrite E3, <- app_assoc; split; [reflexivity|]; split; [exact R2|];
        cbn [filter]; replace (hasc (mkg d (b, cur))) with true by (symmetry; apply Nat.ltb_lt; exact C2); cbn [map]; exact R3 ] ].
  all: destruct ADD as (lv1 & post1 & E1 & R1 & Rs1).
  - (* end of the keys *)
    rewrite app_nil_r in E. subst todo. cbn [length Nat.add group_loop].
    assert (Lk : ge = length kvs) by (rewrite E, app_length; auto).
    destruct (Nat.ltb_spec ge (length kvs)); [lia|]. cbn [bind]. rewrite Lk, Nat.eqb_refl. cbn [andb]. rewrite <- Lk.
    replace (Nat.eqb gs 0 && negb (Nat.eqb (ge - gs) 1)) with false.
    2:{ destruct (Nat.eqb_spec gs 0) as [G0|G0]; [|reflexivity]. destruct (Nat.eqb_spec (ge - gs) 1) as [G1|G1]; [reflexivity|].
        exfalso. destruct preK; [|cbn [length] in Egs; lia]. apply Hone; auto; lia. }
    rewrite He0. cbn [bind]. rewrite (idx_byte e0) by auto. cbn [bind]. rewrite B0, E1. cbn [bind group_loop].
    exists lv1, post1. split; auto.
  - (* another key *)
    subst todo. cbn [length Nat.add group_loop].
    assert (Lk : ge < length kvs) by (rewrite E, !app_length; cbn [length]; lia).
    assert (Hge : idx kvs ge = Ok e).
    { rewrite E, app_assoc. apply idx_mid. rewrite app_length. auto. }
    assert (Le : d < length (fst e)) by (rewrite Forall_forall in Hl; apply Hl; apply in_or_app; right; left; auto).
    destruct (Nat.ltb_spec ge (length kvs)); [|lia]. rewrite He0, Hge. cbn [bind]. rewrite !idx_byte by auto. cbn [bind].
    rewrite B0. cbn [emit]. destruct (Nat.eqb_spec b (kbyte d e)) as [Eb|Eb].
    + apply (IH preK (cur ++ [e]) b); auto.
      * rewrite E, <- app_assoc. reflexivity.
      * destruct cur; discriminate.
      * apply Forall_app. split; auto.
      * rewrite <- app_assoc. exact Hl.
      * intros P1 P2. specialize (Hone P1 P2). cbn [emit] in Hone. rewrite Eb, Nat.eqb_refl in Hone. rewrite Eb. exact Hone.
      * rewrite app_length. cbn [length]. lia.
    + replace (Nat.eqb ge (length kvs)) with false by (symmetry; apply Nat.eqb_neq; lia). cbn [andb].
      rewrite E1. cbn [bind].
      destruct (IH (preK ++ cur) [e] (kbyte d e) lv1 (its ++ [mkg d (b, cur)]) pre post1 
        (merge NSS (blevels k (map mkchild (filter hasc [mkg d (b, cur)])))) ge (S ge) (length r + 1)) as (lv2 & post2 & E3 & R3 & Rs3); auto.
      * rewrite E, <- app_assoc. reflexivity.
      * discriminate.
      * apply Forall_app in Hl. apply Hl.
      * intros P. apply app_eq_nil in P. destruct P as [_ P]. congruence.
      * rewrite app_length. auto.
      * rewrite app_length. cbn [length]. lia.
      * exists lv2, post2. split; auto. cbn [map]. rewrite <- app_assoc in R3. split; [exact R3|].
        rewrite merge_assoc, <- blevels_app, <- map_app, <- filter_app in Rs3. exact Rs3.
Qed.

Lemma emit_one d : forall rest b cur, length (emit d b cur rest) = 1 -> Forall (fun e => kbyte d e = b) rest.
Proof using. clear Hlen.
  induction rest as [|e r IH]; intros b cur H; [constructor|]. cbn [emit] in H.
  destruct (Nat.eqb_spec b (kbyte d e)) as [E|E].
  - constructor; auto. eapply IH; eauto.
  - exfalso. cbn [length] in H. assert (length (emit d (kbyte d e) [e] r) >= 1); [|lia].
    clear. generalize (kbyte d e) [e]. induction r as [|x r IH]; intros b l; cbn [emit length]; [lia|].
    destruct (Nat.eqb _ _); [apply IH|]. cbn [length]. specialize (IH (kbyte d x) [x]). lia.
Qed.

Lemma group_loop_oneway rec d i kvs ls :
  forall rest cur b ge todo,
  kvs = cur ++ rest -> cur <> [] -> Forall (fun e => kbyte d e = b) (cur ++ rest) ->
  Forall (fun e => d < length (fst e)) (cur ++ rest) -> length kvs <> 1 ->
  ge = length cur -> todo = length rest + 1 ->
  group_loop fp rec c kvs d i todo 0 ge ls = Ok None.
Proof.
  intros rest. induction rest as [|e r IH]; intros cur b ge todo E Hne Hb Hl H1 Ege Et.
  - rewrite app_nil_r in E. subst. cbn [length Nat.add group_loop]. rewrite Nat.ltb_irrefl. cbn [bind].
    rewrite !Nat.eqb_refl, Nat.sub_0_r. cbn [andb]. destruct (Nat.eqb_spec (length cur) 1); [lia|]. reflexivity.
  - subst todo. cbn [length Nat.add group_loop].
    destruct cur as [|e0 cur0]; [congruence|].
    assert (He0 : idx kvs 0 = Ok e0) by (rewrite E; reflexivity).
    assert (Hge : idx kvs ge = Ok e) by (rewrite E; apply idx_mid; auto).
    assert (Lk : ge < length kvs) by (rewrite E, !app_length; cbn [length] in *; lia).
    destruct (Nat.ltb_spec ge (length kvs)); [|lia]. rewrite He0, Hge. cbn [bind].
    rewrite Forall_forall in Hb, Hl. rewrite !idx_byte.
    2:{ apply Hl. apply in_or_app. right. left. auto. } 2:{ apply Hl. left. auto. }
    cbn [bind]. rewrite (Hb e0), (Hb e), Nat.eqb_refl.
    2:{ apply in_or_app. right. left. auto. } 2:{ left. auto. }
    apply (IH ((e0 :: cur0) ++ [e]) b); auto.
    + rewrite <- app_assoc. exact E.
    + discriminate.
    + rewrite <- app_assoc. rewrite Forall_forall. exact Hb.
    + rewrite <- app_assoc. rewrite Forall_forall. exact Hl.
    + rewrite app_length. cbn [length] in *. lia.
Qed.

Lemma group_loop_first rec d i kvs gs e rest ls todo preK :
  kvs = preK ++ e :: rest -> gs = length preK -> d < length (fst e) -> todo = length kvs + 1 - gs ->
  group_loop fp rec c kvs d i todo gs gs ls = group_loop fp rec c kvs d i (length rest + 1) gs (S gs) ls.
Proof.
  intros E G L T. assert (todo = S (length rest + 1)) as -> by (rewrite T, E, app_length; cbn [length]; lia).
  cbn [group_loop]. assert (I : idx kvs gs = Ok e) by (rewrite E; apply idx_mid; auto).
  destruct (Nat.ltb_spec gs (length kvs)) as [H|H]; [|rewrite E, app_length in H; cbn [length] in H; lia].
  rewrite I. cbn [bind]. rewrite idx_byte by auto. cbn [bind]. rewrite Nat.eqb_refl. reflexivity.
Qed.

Lemma buildNodes_spec fuel : forall M kvs pd d i ls pre post NSS k,
  kok M d kvs -> (length kvs = 1 -> is_term d kvs = false) -> pd <= d -> M < d + fuel -> length kvs <= k ->
  ls = pre ++ post -> length pre = i -> lreps post NSS ->
  exists post', buildNodes fp fuel c kvs pd d i ls = Ok (pre ++ post') /\
    lreps post' (merge NSS (blevels k [mkTN kvs pd (branch (S (length (key0 kvs))) kvs d)])).
Proof.
  induction fuel as [|fuel IH]; intros M kvs pd d i ls pre post NSS k K H1 Hpd HM Hk Els Hpre Rs.
  { exfalso. pose proof (k_ne _ _ _ K). destruct kvs as [|e r]; [congruence|].
    pose proof (share_length _ _ e (k_share _ _ _ K) (or_introl eq_refl)).
    pose proof (k_max _ _ _ K) as X. inversion X; subst. lia. }
  destruct kvs as [|e0 r0] eqn:Ekvs; [exfalso; now apply (k_ne _ _ _ K)|]. rewrite <- Ekvs in *.
  assert (HH : exists lv post1 ns0 NSS1, ensureLevel ls i = pre ++ lv :: post1 /\ lrep lv ns0 [] /\ lreps post1 NSS1 /\
    forall x X, merge NSS (x :: X) = (ns0 ++ x) :: merge NSS1 X).
  { unfold ensureLevel. destruct Rs as [|lv ns0 post1 NSS1 R0 Rs1].
    - exists emptyLevel, [], [], []. rewrite app_nil_r in Els. subst ls. rewrite Hpre, Nat.leb_refl. 
      split; auto. split; [apply lrep_empty|]. split; [constructor|]. reflexivity.
    - exists lv, post1, ns0, NSS1. subst ls. rewrite app_length. cbn [length].
      destruct (Nat.leb_spec (length pre + S (length post1)) i); [lia|]. split; [reflexivity|]; split; [exact R0|]; split; [exact Rs1|]; reflexivity. }
  destruct HH as (lv & post1 & ns0 & NSS1 & EL & R & Rs1 & EM).
  cbn [buildNodes]. rewrite EL. rewrite idx_mid by auto. cbn [bind].
  assert (E0 : idx kvs 0 = Ok e0) by (rewrite Ekvs; reflexivity). rewrite E0. cbn [bind].
  assert (Key0 : key0 kvs = fst e0) by (rewrite Ekvs; reflexivity).
  assert (T0 : Nat.leb (length (fst e0)) d = is_term d kvs) by (rewrite Ekvs; reflexivity).
  assert (In0 : In e0 kvs) by (rewrite Ekvs; left; auto).
  pose proof (nonterm_long d kvs (k_inc _ _ _ K) (k_share _ _ _ K)) as Long.
  pose proof (lrep_numItems _ _ _ R) as HN. rewrite app_nil_r in HN.
  assert (RK : rec_ok (buildNodes fp fuel c) M d (S i)).
  { intros sub ls' pre' post' NSS' k' K' L2 Lk' E' Hp' R'.
    replace (d + 1) with (S d) by lia. unfold mknode.
    apply (IH M sub (S d) (S d) (S i) ls' pre' post' NSS' k'); auto; lia. }
  rewrite T0.
  destruct (oneway d kvs) eqn:OW.
  - (* one-way node: descend *)
    pose proof OW as OW'. unfold oneway in OW'. apply andb_prop in OW' as [OW1 OW2]. apply andb_prop in OW1 as [OT O1].
    apply negb_true_iff in OT, O1. apply Nat.eqb_neq in O1. apply Nat.eqb_eq in OW2. rewrite OT. cbn [bind].
    assert (NT : nonterm d kvs = kvs) by (unfold nonterm; now rewrite OT). rewrite NT in Long.
    assert (AB : Forall (fun e => kbyte d e = kbyte d e0) ([e0] ++ r0)).
    { constructor; auto. rewrite Ekvs in OW2. cbn [groups] in OW2. now apply emit_one in OW2. }
    rewrite (group_loop_first _ d i kvs 0 e0 r0 _ _ []); auto; [|rewrite Ekvs in Long; now inversion Long].
    rewrite (group_loop_oneway _ d i kvs _ r0 [e0] (kbyte d e0)); auto; [|discriminate|rewrite Ekvs in Long; exact Long].
    cbn [bind].
    destruct (IH M kvs pd (d + 1) i (pre ++ lv :: post1) pre (lv :: post1) (ns0 :: NSS1) k) as (post' & E & R'); auto.
    + constructor; try apply K. replace (d + 1) with (S d) by lia. apply oneway_share; auto; apply K.
    + intros X. exfalso. lia.
    + lia.
    + lia.
    + constructor; auto.
    + exists post'. split; [exact E|].
      assert (Sh : share (S d) kvs) by (apply oneway_share; auto; apply K).
      replace (branch (S (length (key0 kvs))) kvs d) with (branch (S (length (key0 kvs))) kvs (d + 1)).
      * destruct k as [|k']; [rewrite Ekvs in Hk; cbn in Hk; lia|]. cbn [blevels] in *. rewrite EM. exact R'.
      * rewrite (branch_fuel (S (length (key0 kvs))) (S (S (length (key0 kvs)))) kvs d); try apply K; try lia.
        cbn [branch]. rewrite OW. replace (d + 1) with (S d) by lia.
        change (if oneway (S d) kvs then branch (length (key0 kvs)) kvs (S (S d)) else S d) with (branch (S (length (key0 kvs))) kvs (S d)).
        reflexivity.
  - assert (BR : branch (S (length (key0 kvs))) kvs d = d) by (cbn [branch]; now rewrite OW). rewrite BR.
    set (n := mkTN kvs pd d).
    assert (W : nwf n) by (constructor; cbn [n tn_kvs tn_pd tn_d]; auto; apply K).
    assert (PFX : (if Nat.ltb pd d then slice (fst e0) pd d else Ok []) = Ok (nprefix n)).
    { unfold nprefix. cbn [n tn_kvs tn_pd tn_d]. rewrite Key0. destruct (Nat.ltb_spec pd d) as [P|P].
      - unfold slice. pose proof (share_length _ _ e0 (k_share _ _ _ K) In0).
        destruct (Nat.leb_spec pd d); [|lia]. destruct (Nat.leb_spec d (length (fst e0))); [|lia]. reflexivity.
      - replace (d - pd) with 0 by lia. reflexivity. }
    assert (GL : exists lv' post', 
      (' (ls0, groupStart) <- (if is_term d kvs then ls0 <- upd_level (pre ++ lv :: post1) i (addTerminator fp c e0 d) ;; Ok (ls0, 1)
                               else Ok (pre ++ lv :: post1, 0)) ;;
       group_loop fp (buildNodes fp fuel c) c kvs d i (length kvs + 1 - groupStart) groupStart groupStart ls0)
      = Ok (Some (pre ++ lv' :: post')) /\ lrep lv' ns0 (items n) /\ lreps post' (merge NSS1 (blevels k (children n)))).
    { unfold children, items, items_at. cbn [n tn_kvs tn_pd tn_d]. unfold titem, nonterm in *. destruct (is_term d kvs) eqn:IT.
      - destruct (addTerminator_spec lv ns0 [] e0 d R) as (lv1 & E1 & R1).
        { pose proof (k_byte _ _ _ K) as X. rewrite Forall_forall in X. auto. }
        { pose proof (k_val _ _ _ K) as X. rewrite Forall_forall in X. auto. }
        rewrite (upd_level_mid _ _ _ _ _ lv1) by auto. cbn [bind].
        destruct r0 as [|e1 r1]. { exfalso. rewrite Ekvs in *. specialize (H1 eq_refl). discriminate. }
        rewrite Ekvs in Long. cbn [tl] in Long.
        rewrite (group_loop_first _ d i kvs 1 e1 r1 _ _ [e0]); auto; [|now inversion Long].
        destruct (group_loop_spec (buildNodes fp fuel c) M d i ns0 kvs k K RK Hk r1 [e0] [e1] (kbyte d e1) lv1 ([] ++ [mkItem labelTerminator true d [e0]]) pre post1 NSS1 1 2 (length r1 + 1)) as (lv2 & post2 & E2 & R2 & Rs2); auto.
        { discriminate. } { intros X; discriminate X. }
        exists lv2, post2. rewrite E2. split; auto.
        rewrite Ekvs. cbn [tl groups firstn]. split; [exact R2|].
        cbn [app filter]. unfold hasc at 1. cbn [i_grp length Nat.ltb Nat.leb]. exact Rs2.
      - cbn [bind app]. rewrite Ekvs in Long.
        rewrite (group_loop_first _ d i kvs 0 e0 r0 _ _ []); auto; [|now inversion Long].
        destruct (group_loop_spec (buildNodes fp fuel c) M d i ns0 kvs k K RK Hk r0 [] [e0] (kbyte d e0) lv [] pre post1 NSS1 0 1 (length r0 + 1)) as (lv2 & post2 & E2 & R2 & Rs2); auto.
        { discriminate. }
        { intros _ X Y. unfold oneway in OW. rewrite IT in OW. rewrite Ekvs in OW at 2. cbn [groups] in OW. rewrite Y in OW.
          destruct (Nat.eqb_spec (length kvs) 1); [lia|discriminate]. }
        exists lv2, post2. rewrite E2. split; auto. rewrite Ekvs. cbn [groups]. split; [exact R2|exact Rs2]. }
    destruct GL as (lv2 & post2 & E2 & R2 & Rs2).
    destruct (finishNode_spec lv2 ns0 n R2 W) as (lv3 & E3 & R3).
    exists (lv3 :: post2). split.
    + rewrite HN. destruct (is_term d kvs).
      * destruct (upd_level (pre ++ lv :: post1) i (addTerminator fp c e0 d)) as [ls1| |]; cbn [bind] in E2 |- *; try discriminate.
        rewrite E2. cbn [bind]. rewrite PFX. cbn [bind]. apply upd_level_mid; auto.
      * cbn [bind] in E2 |- *. rewrite E2. cbn [bind]. rewrite PFX. cbn [bind]. apply upd_level_mid; auto.
    + destruct k as [|k']; [rewrite Ekvs in Hk; cbn in Hk; lia|]. cbn [blevels flat_map]. rewrite app_nil_r, EM.
      constructor; auto.
      rewrite (blevels_fuel k' (S k')); auto.
      * replace (children n) with (flat_map children [n]) by (cbn; apply app_nil_r). apply small_children. constructor; auto.
      * assert (S1 : small k' (flat_map children [n])) by (apply small_children; constructor; auto).
        cbn [flat_map] in S1. rewrite app_nil_r in S1. unfold small in *. rewrite Forall_forall in *. intros x Hx. specialize (S1 x Hx). intuition lia.
Qed.
End Build.
