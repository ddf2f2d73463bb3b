(** * The abstract trie behind a SuRF: nodes are groups of keys, levels are breadth-first.

    Ghost definitions and their structural facts; no statement of a property mentions
    them. *)
From Verif Require Import Base BitsModel VecModel SurfModel.
From Coq Require Import Sorted.

Definition kbyte (d : nat) (e : kv) : byte := nth d (fst e) 0.

(** Consecutive groups of equal byte at [d]. *)
Fixpoint emit (d b : nat) (cur rest : list kv) : list (byte * list kv) :=
  match rest with
  | [] => [(b, cur)]
  | e :: r => if Nat.eqb b (kbyte d e) then emit d b (cur ++ [e]) r
              else (b, cur) :: emit d (kbyte d e) [e] r
  end.
Definition groups (d : nat) (kvs : list kv) : list (byte * list kv) :=
  match kvs with [] => [] | e :: r => emit d (kbyte d e) [e] r end.

Record item := mkItem { i_label : byte; i_term : bool; i_depth : nat; i_grp : list kv }.
Definition hasc (it : item) : bool := Nat.ltb 1 (length (i_grp it)).
Definition leafb (it : item) : bool := negb (hasc it).
Definition noterm (it : item) : bool := negb (i_term it).
Definition i_kv (it : item) : kv := hd ([], []) (i_grp it).

Definition is_term (d : nat) (kvs : list kv) : bool :=
  match kvs with [] => false | e :: _ => Nat.leb (length (fst e)) d end.
Definition nonterm (d : nat) (kvs : list kv) : list kv := if is_term d kvs then tl kvs else kvs.
Definition titem (d : nat) (kvs : list kv) : list item :=
  if is_term d kvs then [mkItem labelTerminator true d (firstn 1 kvs)] else [].
Definition mkg (d : nat) (p : byte * list kv) : item := mkItem (fst p) false d (snd p).
Definition items_at (d : nat) (kvs : list kv) : list item :=
  titem d kvs ++ map (mkg d) (groups d (nonterm d kvs)).

Definition oneway (d : nat) (kvs : list kv) : bool :=
  negb (is_term d kvs) && negb (Nat.eqb (length kvs) 1) && Nat.eqb (length (groups d kvs)) 1.
Fixpoint branch (fuel : nat) (kvs : list kv) (d : nat) : nat :=
  match fuel with O => d | S f => if oneway d kvs then branch f kvs (S d) else d end.

Definition key0 (kvs : list kv) : bytes := fst (hd ([], []) kvs).

Record tnode := mkTN { tn_kvs : list kv; tn_pd : nat; tn_d : nat }.
Definition mknode (kvs : list kv) (pd : nat) : tnode := mkTN kvs pd (branch (S (length (key0 kvs))) kvs pd).
Definition items (n : tnode) : list item := items_at (tn_d n) (tn_kvs n).
Definition mkchild (it : item) : tnode := mknode (i_grp it) (S (i_depth it)).
Definition children (n : tnode) : list tnode := map mkchild (filter hasc (items n)).
Definition nprefix (n : tnode) : bytes := firstn (tn_d n - tn_pd n) (skipn (tn_pd n) (key0 (tn_kvs n))).

(** All keys have a common prefix of length [d]. *)
Definition share (d : nat) (kvs : list kv) : Prop :=
  exists p, length p = d /\ Forall (fun e => is_prefix p (fst e)) kvs.

Record nwf (n : tnode) : Prop := {
  w_ne : tn_kvs n <> [];
  w_inc : increasing (map fst (tn_kvs n));
  w_byte : Forall (fun e => wf_bytes (fst e) = true) (tn_kvs n);
  w_share : share (tn_d n) (tn_kvs n);
  w_pd : tn_pd n <= tn_d n;
  w_branch : oneway (tn_d n) (tn_kvs n) = false;
  w_one : length (tn_kvs n) = 1 -> is_term (tn_d n) (tn_kvs n) = false
}.

(* ------------------------------------------------------------------ *)
(** ** Groups *)

Lemma emit_concat d : forall rest b cur, concat (map snd (emit d b cur rest)) = cur ++ rest.
Proof.
  induction rest as [|e r IH]; intros b cur; cbn [emit].
  - reflexivity.
  - destruct (Nat.eqb b (kbyte d e)).
    + rewrite IH, <- app_assoc. reflexivity.
    + cbn [map concat snd]. rewrite IH. reflexivity.
Qed.

Lemma groups_concat d kvs : concat (map snd (groups d kvs)) = kvs.
Proof. destruct kvs as [|e r]; [reflexivity|]. unfold groups. now rewrite emit_concat. Qed.

Lemma emit_group d : forall rest b cur, cur <> [] -> Forall (fun e => kbyte d e = b) cur ->
  Forall (fun p => snd p <> [] /\ Forall (fun e => kbyte d e = fst p) (snd p)) (emit d b cur rest).
Proof.
  induction rest as [|e r IH]; intros b cur Hn Hc; cbn [emit].
  - constructor; auto.
  - destruct (Nat.eqb_spec b (kbyte d e)).
    + apply IH. { destruct cur; discriminate. }
      apply Forall_app. split; auto.
    + constructor; auto. apply IH; [discriminate|]. auto.
Qed.

Lemma groups_group d kvs :
  Forall (fun p => snd p <> [] /\ Forall (fun e => kbyte d e = fst p) (snd p)) (groups d kvs).
Proof. destruct kvs as [|e r]; [constructor|]. apply emit_group; [discriminate|auto]. Qed.

Lemma emit_sorted d : forall rest b cur,
  StronglySorted le (b :: map (kbyte d) rest) ->
  StronglySorted lt (map fst (emit d b cur rest)) /\ Forall (le b) (map fst (emit d b cur rest)).
Proof.
  induction rest as [|e r IH]; intros b cur Hs; cbn [emit].
  - cbn. split; repeat constructor.
  - cbn [map] in Hs. inversion Hs as [|x l Hs' Hf]; subst. inversion Hf; subst.
    inversion Hs' as [|y l' Hs'' Hf']; subst.
    destruct (Nat.eqb_spec b (kbyte d e)) as [->|Hne].
    + apply IH. constructor; auto.
    + destruct (IH (kbyte d e) [e]) as [A B]; [constructor; auto|]. cbn [map fst]. split.
      * constructor; auto. eapply Forall_impl; [|exact B]. cbn. lia.
      * constructor; auto. eapply Forall_impl; [|exact B]. cbn. lia.
Qed.

(** ** Order and shared prefixes *)

Lemma share_sub d kvs kvs' : share d kvs -> incl kvs' kvs -> share d kvs'.
Proof.
  intros (p & H1 & H2) H. exists p. split; auto. apply Forall_forall. intros e He.
  rewrite Forall_forall in H2. apply H2. now apply H.
Qed.

Lemma share_le d d' kvs : d' <= d -> share d kvs -> share d' kvs.
Proof.
  intros H (p & H1 & H2). exists (firstn d' p). split; [rewrite firstn_length; lia|].
  eapply Forall_impl; [|exact H2]. intros e (q & E). exists (skipn d' p ++ q). rewrite E, app_assoc, firstn_skipn. reflexivity.
Qed.

Lemma share_length d kvs e : share d kvs -> In e kvs -> d <= length (fst e).
Proof.
  intros (p & H1 & H2) He. rewrite Forall_forall in H2. destruct (H2 e He) as (q & E). rewrite E, app_length. lia.
Qed.

Lemma share_firstn d kvs e e' : share d kvs -> In e kvs -> In e' kvs -> firstn d (fst e) = firstn d (fst e').
Proof.
  intros (p & H1 & H2) He He'. rewrite Forall_forall in H2.
  destruct (H2 e He) as (q & E). destruct (H2 e' He') as (q' & E'). rewrite E, E', !firstn_app.
  replace (d - length p) with 0 by lia. reflexivity.
Qed.

Lemma share_blt d kvs e e' : share d kvs -> In e kvs -> In e' kvs -> blt (fst e) (fst e') ->
  blt (skipn d (fst e)) (skipn d (fst e')).
Proof.
  intros S He He' H. unfold blt in *. rewrite <- (firstn_skipn d (fst e)), <- (firstn_skipn d (fst e')) in H.
  rewrite (share_firstn d kvs e e' S He He') in H. now rewrite bcompare_app in H.
Qed.

Lemma skipn_nth_cons (l : bytes) d : d < length l -> skipn d l = nth d l 0 :: skipn (S d) l.
Proof.
  revert d. induction l as [|x l IH]; intros d H; cbn [length] in H; [lia|].
  destruct d as [|d]; [reflexivity|]. cbn [skipn nth]. rewrite IH by lia. reflexivity.
Qed.

Lemma blt_byte_le a b : blt a b -> b <> [] -> a <> [] -> hd 0 a <= hd 0 b.
Proof.
  intros H Hb Ha. destruct a, b; try congruence. unfold blt in H. cbn in *.
  destruct (Nat.compare_spec n n0); try discriminate; lia.
Qed.

Lemma inc_tail a l : increasing (a :: l) -> increasing l.
Proof. intros H. now apply increasing_cons in H. Qed.

Lemma increasing_app l1 l2 : increasing (l1 ++ l2) -> increasing l1 /\ increasing l2 /\
  forall a b, In a l1 -> In b l2 -> blt a b.
Proof.
  induction l1 as [|x l1 IH]; intros H.
  - cbn in *. repeat split; auto. intros a b [].
  - cbn [app] in H. apply increasing_cons in H as [H1 H2]. destruct (IH H1) as (A & B & C).
    apply Forall_app in H2 as [H2 H3]. split; [apply increasing_cons_iff; auto|]. split; auto.
    intros a b [<-|Ha] Hb; auto. rewrite Forall_forall in H3. now apply H3.
Qed.

Lemma kbytes_sorted d kvs : increasing (map fst kvs) -> share d kvs ->
  Forall (fun e => d < length (fst e)) kvs -> StronglySorted le (map (kbyte d) kvs).
Proof.
  induction kvs as [|e r IH]; intros Hi Hs Hl; [constructor|].
  cbn [map] in *. apply increasing_cons in Hi as [Hi1 Hi2]. inversion Hl; subst. constructor.
  - apply IH; auto. eapply share_sub; [exact Hs|]. intros x Hx. now right.
  - apply Forall_forall. intros b Hb. apply in_map_iff in Hb as (e' & <- & He').
    rewrite Forall_forall in Hi2. specialize (Hi2 (fst e') (in_map fst _ _ He')).
    assert (L : d < length (fst e')) by (rewrite Forall_forall in H2; auto).
    pose proof (share_blt d (e :: r) e e' Hs (or_introl eq_refl) (or_intror He') Hi2) as B.
    rewrite (skipn_nth_cons (fst e)), (skipn_nth_cons (fst e')) in B by auto. unfold blt in B. cbn [bcompare] in B. unfold kbyte.
    destruct (Nat.compare_spec (nth d (fst e) 0) (nth d (fst e') 0)); try discriminate; lia.
Qed.

Lemma groups_sorted d kvs : increasing (map fst kvs) -> share d kvs ->
  Forall (fun e => d < length (fst e)) kvs -> StronglySorted lt (map fst (groups d kvs)).
Proof.
  intros H1 H2 H3. destruct kvs as [|e r]; [constructor|]. unfold groups. apply emit_sorted.
  change (kbyte d e :: map (kbyte d) r) with (map (kbyte d) (e :: r)). now apply kbytes_sorted.
Qed.

(** After the possible terminator every key goes on past depth [d]. *)
Lemma nonterm_long d kvs : increasing (map fst kvs) -> share d kvs ->
  Forall (fun e => d < length (fst e)) (nonterm d kvs).
Proof.
  intros Hi Hs. unfold nonterm. destruct kvs as [|e r]; [constructor|]. cbn [is_term tl].
  cbn [map] in Hi. apply increasing_cons in Hi as [_ Hi]. rewrite Forall_forall in Hi.
  assert (Long : forall e', In e' r -> d < length (fst e')).
  { intros e' He'. pose proof (share_length d (e :: r) e' Hs (or_intror He')).
    destruct (Nat.eq_dec (length (fst e')) d) as [E|]; [exfalso|lia].
    specialize (Hi (fst e') (in_map fst _ _ He')).
    pose proof (share_blt d (e :: r) e e' Hs (or_introl eq_refl) (or_intror He') Hi) as B.
    rewrite (skipn_all2 (fst e')) in B by lia. destruct (skipn d (fst e)); discriminate. }
  destruct (Nat.leb_spec (length (fst e)) d).
  - apply Forall_forall. auto.
  - constructor; auto. apply Forall_forall. auto.
Qed.

Lemma nonterm_incl d kvs : incl (nonterm d kvs) kvs.
Proof. unfold nonterm. destruct (is_term d kvs); [|apply incl_refl]. destruct kvs; [apply incl_refl|]. intros x Hx. now right. Qed.

Lemma nonterm_inc d kvs : increasing (map fst kvs) -> increasing (map fst (nonterm d kvs)).
Proof.
  unfold nonterm. destruct (is_term d kvs); auto. destruct kvs as [|e r]; auto. cbn [tl map]. apply inc_tail.
Qed.

Lemma titem_kvs d kvs : concat (map i_grp (titem d kvs)) ++ nonterm d kvs = kvs.
Proof.
  unfold titem, nonterm. destruct (is_term d kvs) eqn:E; [|reflexivity].
  destruct kvs; [discriminate|]. reflexivity.
Qed.

Lemma map_mkg_grp d l : map i_grp (map (mkg d) l) = map snd l.
Proof. rewrite map_map. reflexivity. Qed.

Lemma items_kvs d kvs : concat (map i_grp (items_at d kvs)) = kvs.
Proof.
  unfold items_at. rewrite map_app, concat_app, map_mkg_grp, groups_concat. apply titem_kvs.
Qed.

Lemma titem_facts d kvs it : In it (titem d kvs) ->
  i_term it = true /\ i_depth it = d /\ i_label it = labelTerminator /\ is_term d kvs = true /\
  exists e r, kvs = e :: r /\ i_grp it = [e] /\ length (fst e) <= d.
Proof.
  unfold titem. destruct (is_term d kvs) eqn:E; [|intros []]. intros [<-|[]]. cbn.
  repeat split; auto. destruct kvs as [|e r]; [discriminate|]. exists e, r. cbn in *. apply Nat.leb_le in E. auto.
Qed.

Lemma noterm_items d kvs : filter noterm (items_at d kvs) = map (mkg d) (groups d (nonterm d kvs)).
Proof.
  unfold items_at, titem. rewrite filter_app.
  assert (E : forall l, filter noterm (map (mkg d) l) = map (mkg d) l).
  { induction l as [|x l IH]; cbn; auto. rewrite IH. reflexivity. }
  rewrite E. destruct (is_term d kvs); reflexivity.
Qed.

(** Labels of the non-terminator items increase strictly. *)
Lemma labels_sorted n : nwf n -> StronglySorted lt (map i_label (filter noterm (items n))).
Proof.
  intros W. unfold items. rewrite noterm_items, map_map.
  rewrite (map_ext _ fst) by reflexivity. apply groups_sorted.
  - apply nonterm_inc, W.
  - eapply share_sub; [apply W|apply nonterm_incl].
  - apply nonterm_long; apply W.
Qed.

(** Facts about one item. *)
Lemma group_item d kvs p : In p (groups d kvs) ->
  snd p <> [] /\ incl (snd p) kvs /\ (forall e, In e (snd p) -> kbyte d e = fst p) /\ length (snd p) <= length kvs.
Proof.
  intros H. pose proof (groups_group d kvs) as G. rewrite Forall_forall in G. destruct (G p H) as [G1 G2].
  split; auto.
  assert (I : incl (snd p) kvs).
  { intros e He. rewrite <- (groups_concat d kvs). apply in_concat. exists (snd p). split; auto. now apply in_map. }
  split; auto. split. { rewrite Forall_forall in G2. auto. }
  rewrite <- (groups_concat d kvs).
  apply in_split in H as (l1 & l2 & ->). rewrite map_app. cbn [map]. rewrite concat_app, app_length. cbn [concat]. rewrite app_length. lia.
Qed.

Lemma sub_increasing d kvs p : increasing (map fst kvs) -> In p (groups d kvs) -> increasing (map fst (snd p)).
Proof.
  intros Hi H. rewrite <- (groups_concat d kvs) in Hi. apply in_split in H as (l1 & l2 & E). rewrite E in Hi.
  rewrite map_app in Hi. cbn [map] in Hi. rewrite concat_app in Hi. cbn [concat] in Hi.
  rewrite !map_app in Hi. apply increasing_app in Hi as (_ & Hi & _). apply increasing_app in Hi. apply Hi.
Qed.

Lemma share_step d kvs b : share d kvs -> kvs <> [] -> Forall (fun e => d < length (fst e)) kvs ->
  (forall e, In e kvs -> kbyte d e = b) -> share (S d) kvs.
Proof.
  intros Hs Hn Hl Hb. destruct kvs as [|e0 r]; [congruence|].
  assert (L0 : d < length (fst e0)) by (inversion Hl; auto).
  exists (firstn d (fst e0) ++ [b]). split; [rewrite app_length, firstn_length; cbn; lia|].
  apply Forall_forall. intros e He. rewrite Forall_forall in Hl. specialize (Hl e He).
  exists (skipn (S d) (fst e)). rewrite <- app_assoc. cbn [app].
  rewrite <- (Hb e He). unfold kbyte. rewrite <- skipn_nth_cons by auto.
  rewrite (share_firstn d (e0 :: r) e0 e Hs (or_introl eq_refl) He). now rewrite firstn_skipn.
Qed.

Lemma oneway_share d kvs : increasing (map fst kvs) -> share d kvs -> oneway d kvs = true -> share (S d) kvs.
Proof.
  intros Hi Hs H. unfold oneway in H. apply andb_true_iff in H as [H H3]. apply andb_true_iff in H as [H1 H2].
  apply negb_true_iff in H1. pose proof (nonterm_long d kvs Hi Hs) as L. unfold nonterm in L. rewrite H1 in L.
  apply Nat.eqb_eq in H3. destruct (groups d kvs) as [|p [|]] eqn:G; try discriminate.
  pose proof (groups_concat d kvs) as C. rewrite G in C. cbn in C. rewrite app_nil_r in C.
  assert (Hp : In p (groups d kvs)) by (rewrite G; now left).
  destruct (group_item d kvs p Hp) as (P1 & P2 & P3 & _). rewrite C in P3, P1.
  eapply share_step; eauto.
Qed.

Lemma branch_spec fuel : forall kvs d, kvs <> [] -> increasing (map fst kvs) -> share d kvs ->
  length (key0 kvs) < d + fuel ->
  d <= branch fuel kvs d /\ share (branch fuel kvs d) kvs /\ oneway (branch fuel kvs d) kvs = false.
Proof.
  induction fuel as [|fuel IH]; intros kvs d Hn Hi Hs Hf.
  - exfalso. destruct kvs as [|e r]; [congruence|].
    pose proof (share_length d (e :: r) e Hs (or_introl eq_refl)). unfold key0 in Hf. cbn in Hf. lia.
  - cbn [branch]. destruct (oneway d kvs) eqn:E.
    + pose proof (oneway_share d kvs Hi Hs E) as S1.
      destruct (IH kvs (S d) Hn Hi S1) as (A & B & C); [lia|]. split; [lia|]. auto.
    + auto.
Qed.

Lemma branch_fuel f : forall f' kvs d, kvs <> [] -> increasing (map fst kvs) -> share d kvs ->
  length (key0 kvs) < d + f -> length (key0 kvs) < d + f' -> branch f kvs d = branch f' kvs d.
Proof.
  induction f as [|f IH]; intros f' kvs d Hn Hi Hs H1 H2.
  - exfalso. destruct kvs as [|e r]; [congruence|].
    pose proof (share_length d (e :: r) e Hs (or_introl eq_refl)). unfold key0 in H1. cbn in H1. lia.
  - destruct f' as [|f'].
    { exfalso. destruct kvs as [|e r]; [congruence|].
      pose proof (share_length d (e :: r) e Hs (or_introl eq_refl)). unfold key0 in H2. cbn in H2. lia. }
    cbn [branch]. destruct (oneway d kvs) eqn:E; auto.
    apply IH; auto; try lia. now apply oneway_share.
Qed.

Lemma mknode_wf kvs pd : 2 <= length kvs -> increasing (map fst kvs) ->
  Forall (fun e => wf_bytes (fst e) = true) kvs -> share pd kvs -> nwf (mknode kvs pd).
Proof.
  intros H2 Hi Hb Hs. assert (Hn : kvs <> []) by (destruct kvs; [cbn in H2; lia|discriminate]).
  destruct (branch_spec (S (length (key0 kvs))) kvs pd Hn Hi Hs) as (A & B & C); [lia|].
  constructor; cbn [mknode tn_kvs tn_pd tn_d]; auto. intros E1. exfalso. lia.
Qed.

Lemma in_groups_items d kvs it : In it (items_at d kvs) -> i_term it = false ->
  In (i_label it, i_grp it) (groups d (nonterm d kvs)) /\ i_depth it = d.
Proof.
  intros H E. unfold items_at in H. apply in_app_or in H as [H|H].
  - apply titem_facts in H. destruct H as (H & _). congruence.
  - apply in_map_iff in H as (p & <- & H). destruct p; auto.
Qed.

Lemma item_hasc_noterm n it : In it (items n) -> hasc it = true -> i_term it = false.
Proof.
  intros H E. destruct (i_term it) eqn:T; auto. unfold items in H. apply in_app_or in H as [H|H].
  - apply titem_facts in H as (_ & _ & _ & _ & e & r & _ & G & _). unfold hasc in E. rewrite G in E. discriminate.
  - apply in_map_iff in H as (p & <- & _). discriminate.
Qed.

Lemma item_depth n it : In it (items n) -> i_depth it = tn_d n.
Proof.
  intros H. unfold items in H. apply in_app_or in H as [H|H].
  - now apply titem_facts in H.
  - apply in_map_iff in H as (p & <- & _). reflexivity.
Qed.

Lemma child_wf n it : nwf n -> In it (items n) -> hasc it = true -> nwf (mkchild it).
Proof.
  intros W H Hc. pose proof (item_hasc_noterm n it H Hc) as T.
  pose proof (item_depth n it H) as D.
  destruct (in_groups_items _ _ _ H T) as [G _].
  pose proof (nonterm_long _ _ (w_inc n W) (w_share n W)) as L.
  destruct (group_item _ _ _ G) as (P1 & P2 & P3 & P4). cbn [fst snd] in *.
  assert (IN : incl (i_grp it) (tn_kvs n)) by (intros x Hx; apply (nonterm_incl (tn_d n)); auto).
  unfold mkchild. apply mknode_wf.
  - unfold hasc in Hc. apply Nat.ltb_lt in Hc. lia.
  - exact (sub_increasing _ _ _ (nonterm_inc _ _ (w_inc n W)) G).
  - pose proof (w_byte n W) as B. rewrite Forall_forall in *. auto.
  - rewrite D. apply (share_step (tn_d n) (i_grp it) (i_label it)); auto.
    + eapply share_sub; [apply W|auto].
    + rewrite Forall_forall in *. auto.
Qed.

Lemma children_wf n c : nwf n -> In c (children n) -> nwf c.
Proof.
  intros W H. unfold children in H. apply in_map_iff in H as (it & <- & H). apply filter_In in H as [H1 H2].
  now apply (child_wf n).
Qed.

(** A child's group is strictly smaller. *)
Lemma child_smaller n c : nwf n -> In c (children n) -> length (tn_kvs c) < length (tn_kvs n).
Proof.
  intros W H. unfold children in H. apply in_map_iff in H as (it & <- & H). apply filter_In in H as [H1 H2].
  pose proof (item_hasc_noterm n it H1 H2) as T. destruct (in_groups_items _ _ _ H1 T) as [G _].
  destruct (group_item _ _ _ G) as (_ & _ & _ & P4). cbn [snd] in P4. cbn [mkchild mknode tn_kvs].
  unfold hasc in H2. apply Nat.ltb_lt in H2.
  pose proof (w_branch n W) as B. unfold oneway in B. unfold nonterm in *.
  destruct (is_term (tn_d n) (tn_kvs n)) eqn:E.
  - pose proof (w_ne n W). destruct (tn_kvs n); [congruence|]. cbn [tl length] in *. lia.
  - cbn [negb andb] in B. destruct (Nat.eqb_spec (length (tn_kvs n)) 1); [lia|]. cbn [negb andb] in B.
    apply Nat.eqb_neq in B.
    pose proof (groups_concat (tn_d n) (tn_kvs n)) as C.
    pose proof (groups_group (tn_d n) (tn_kvs n)) as GG. rewrite Forall_forall in GG.
    apply in_split in G as (l1 & l2 & Eg). rewrite Eg in *.
    rewrite <- C. rewrite map_app. cbn [map snd]. rewrite concat_app, app_length. cbn [concat]. rewrite app_length.
    assert (NE : forall p, In p (l1 ++ l2) -> snd p <> []).
    { intros p Hp. apply GG. rewrite in_app_iff in *. cbn. tauto. }
    destruct l1 as [|p l1].
    + destruct l2 as [|p l2]; [cbn in B; lia|]. specialize (NE p ltac:(now left)). cbn [map concat]. rewrite app_length.
      destruct (snd p); [congruence|]. cbn [length map concat]. lia.
    + specialize (NE p ltac:(now left)). cbn [map concat]. rewrite app_length. destruct (snd p); [congruence|]. cbn [length]. lia.
Qed.

(** Every node has items; a node with several keys has at least two. *)
Lemma items_two n : nwf n -> 2 <= length (tn_kvs n) -> 2 <= length (items n).
Proof.
  intros W H. pose proof (w_branch n W) as B. unfold oneway in B. unfold items, items_at. rewrite app_length, map_length.
  unfold titem, nonterm. destruct (is_term (tn_d n) (tn_kvs n)) eqn:E.
  - destruct (tn_kvs n) as [|e [|e' r]]; cbn [length tl] in *; try lia.
    unfold groups. assert (forall l b cur, 1 <= length (emit (tn_d n) b cur l)).
    { induction l as [|x l IH]; intros b cur; cbn [emit]; [cbn; lia|]. destruct (Nat.eqb b (kbyte (tn_d n) x)); auto. cbn. lia. }
    specialize (H0 r (kbyte (tn_d n) e') [e']). lia.
  - cbn [negb andb] in B. destruct (Nat.eqb_spec (length (tn_kvs n)) 1); [lia|]. cbn [negb andb] in B. apply Nat.eqb_neq in B.
    destruct (groups (tn_d n) (tn_kvs n)) as [|p [|]] eqn:G; cbn in *; try lia.
    pose proof (groups_concat (tn_d n) (tn_kvs n)) as C. rewrite G in C. cbn in C. destruct (tn_kvs n); [cbn in H; lia|discriminate].
Qed.

Lemma items_ne n : nwf n -> items n <> [].
Proof.
  intros W E. pose proof (items_kvs (tn_d n) (tn_kvs n)) as C. unfold items in E. rewrite E in C. cbn in C.
  now apply (w_ne n W).
Qed.

Lemma items_pos n : nwf n -> 1 <= length (items n).
Proof. intros W. pose proof (items_ne n W). destruct (items n); [congruence|cbn; lia]. Qed.

Lemma item_grp_ne n it : In it (items n) -> i_grp it <> [].
Proof.
  intros H. unfold items in H. apply in_app_or in H as [H|H].
  - apply titem_facts in H as (_ & _ & _ & _ & e & r & _ & G & _). rewrite G. discriminate.
  - apply in_map_iff in H as (p & <- & H). now apply group_item in H.
Qed.

Lemma item_leaf n it : In it (items n) -> hasc it = false -> exists e, i_grp it = [e].
Proof.
  intros H E. pose proof (item_grp_ne n it H) as N. unfold hasc in E. apply Nat.ltb_ge in E.
  destruct (i_grp it) as [|e [|]]; cbn in *; try congruence; try lia. now exists e.
Qed.

Lemma label_byte n it : nwf n -> In it (items n) -> i_label it < 256.
Proof.
  intros W H. destruct (i_term it) eqn:T.
  - unfold items in H. apply in_app_or in H as [H|H].
    + apply titem_facts in H as (_ & _ & -> & _). unfold labelTerminator. lia.
    + apply in_map_iff in H as (p & <- & _). discriminate.
  - destruct (in_groups_items _ _ _ H T) as [G _].
    destruct (group_item _ _ _ G) as (P1 & P2 & P3 & _). cbn [fst snd] in *.
    destruct (i_grp it) as [|e r]; [congruence|]. rewrite <- (P3 e (or_introl eq_refl)).
    pose proof (w_byte n W) as B. rewrite Forall_forall in B.
    specialize (B e (nonterm_incl _ _ e (P2 e (or_introl eq_refl)))).
    pose proof (nonterm_long _ _ (w_inc n W) (w_share n W)) as L. rewrite Forall_forall in L.
    specialize (L e (P2 e (or_introl eq_refl))).
    unfold wf_bytes in B. rewrite forallb_forall in B. specialize (B (kbyte (tn_d n) e)).
    apply Nat.ltb_lt. apply B. now apply nth_In.
Qed.

(* ------------------------------------------------------------------ *)
(** ** Breadth-first levels *)

Fixpoint merge (A B : list (list tnode)) : list (list tnode) :=
  match A, B with
  | [], _ => B
  | _, [] => A
  | a :: A', b :: B' => (a ++ b) :: merge A' B'
  end.

Fixpoint blevels (fuel : nat) (F : list tnode) : list (list tnode) :=
  match fuel with
  | O => []
  | S f => match F with [] => [] | _ => F :: blevels f (flat_map children F) end
  end.

Lemma merge_nil_r A : merge A [] = A.
Proof. destruct A; reflexivity. Qed.

Lemma merge_assoc A : forall B C, merge (merge A B) C = merge A (merge B C).
Proof.
  induction A as [|a A IH]; intros [|b B] [|c C]; cbn; auto. rewrite IH, app_assoc. reflexivity.
Qed.

Lemma blevels_app f : forall F G, blevels f (F ++ G) = merge (blevels f F) (blevels f G).
Proof.
  induction f as [|f IH]; intros F G; [reflexivity|]. cbn [blevels].
  destruct F as [|x F]; [reflexivity|]. destruct G as [|y G].
  - rewrite app_nil_r, merge_nil_r. reflexivity.
  - cbn [app merge]. f_equal. change (x :: F ++ y :: G) with ((x :: F) ++ y :: G). rewrite flat_map_app. apply IH.
Qed.

(** Fuel: enough as soon as it bounds the number of keys of every node. *)
Definition small (k : nat) (F : list tnode) : Prop := Forall (fun n => nwf n /\ length (tn_kvs n) <= k) F.

Lemma small_children k F : small (S k) F -> small k (flat_map children F).
Proof.
  intros H. apply Forall_forall. intros c Hc. apply in_flat_map in Hc as (n & Hn & Hc).
  unfold small in H. rewrite Forall_forall in H. destruct (H n Hn) as [W L]. split.
  - now apply (children_wf n).
  - pose proof (child_smaller n c W Hc). lia.
Qed.

Lemma small_0 F : small 0 F -> F = [].
Proof.
  intros H. destruct F as [|n F]; auto. inversion H as [|x l [W L] _]; subst. exfalso. apply (w_ne n W).
  destruct (tn_kvs n); auto. cbn in L. lia.
Qed.

Lemma blevels_fuel k : forall k' F, small k F -> small k' F -> blevels k F = blevels k' F.
Proof.
  induction k as [|k IH]; intros k' F H H'.
  - apply small_0 in H as ->. destruct k'; reflexivity.
  - destruct k' as [|k']; [apply small_0 in H' as ->; reflexivity|].
    cbn [blevels]. destruct F; auto. f_equal. apply IH; now apply small_children.
Qed.

Lemma blevels_in k : forall F L n, small k F -> In L (blevels k F) -> In n L -> nwf n.
Proof.
  induction k as [|k IH]; intros F L n H HL Hn; [destruct HL|].
  cbn [blevels] in HL. destruct F as [|x F]; [destruct HL|]. destruct HL as [<-|HL].
  - unfold small in H. rewrite Forall_forall in H. now apply H.
  - eapply IH; eauto. now apply small_children.
Qed.

Lemma blevels_ne k : forall F L, In L (blevels k F) -> L <> [].
Proof.
  induction k as [|k IH]; intros F L HL; [destruct HL|]. cbn [blevels] in HL.
  destruct F as [|x F]; [destruct HL|]. destruct HL as [<-|HL]; [discriminate|]. eapply IH; eauto.
Qed.

(** Levels are linked by [children]. *)
Inductive linked : list (list tnode) -> Prop :=
| linked_last L : flat_map children L = [] -> linked [L]
| linked_cons L L' R : L' = flat_map children L -> linked (L' :: R) -> linked (L :: L' :: R).

Lemma blevels_linked k : forall F, small k F -> F <> [] -> linked (blevels k F).
Proof.
  induction k as [|k IH]; intros F H Hn; [now apply small_0 in H|].
  cbn [blevels]. destruct F as [|x F]; [congruence|].
  pose proof (small_children k _ H) as H'.
  destruct (flat_map children (x :: F)) as [|y G] eqn:E.
  - destruct k; cbn [blevels]; constructor; auto.
  - assert (HL : linked (blevels k (y :: G))) by (apply IH; auto; discriminate).
    destruct k as [|k]; [now apply small_0 in H'|]. cbn [blevels] in *. constructor; auto.
Qed.

(** The whole list of nodes below the first level is the list of all children. *)
Lemma linked_tail NSS : linked NSS -> forall L R, NSS = L :: R -> concat R = flat_map children (concat NSS).
Proof.
  induction 1 as [L0 H|L0 L' R0 H Hl IH]; intros L R E; inversion E; subst.
  - cbn. rewrite app_nil_r, H. reflexivity.
  - cbn [concat]. rewrite flat_map_app. f_equal. specialize (IH _ _ eq_refl). cbn [concat] in IH.
    exact IH.
Qed.

Lemma flat_map_children F : flat_map children F = map mkchild (filter hasc (flat_map items F)).
Proof.
  induction F as [|n F IH]; [reflexivity|]. cbn [flat_map]. rewrite filter_app, map_app, IH. reflexivity.
Qed.

(** Children of the first [l+1] levels are the nodes of levels 1..[l+1]. *)
Lemma linked_firstn NSS : linked NSS -> forall l,
  flat_map children (concat (firstn (S l) NSS)) = concat (tl (firstn (S (S l)) NSS)).
Proof.
  induction 1 as [L0 H|L0 L' R0 H Hl IH]; intros l.
  - cbn. rewrite firstn_nil. cbn. rewrite app_nil_r. auto.
  - cbn [firstn concat tl]. rewrite flat_map_app, <- H. f_equal.
    destruct l as [|l].
    + reflexivity.
    + specialize (IH l). cbn [firstn tl] in IH |- *. exact IH.
Qed.
