(** * Point lookup computes the trie lookup. *)
From Coq Require Import Sorted.
From Verif Require Import Base BitsModel BitsFacts VecModel VecProofs VecProofs2 SurfModel SurfTrie SurfSuffix SurfBuild SurfDense SurfEnc SurfBuildTop.
Ltac Zify.zify_post_hook ::= Z.div_mod_to_equations.

(* ------------------------------------------------------------------ *)
(** ** Counting *)

Lemma cntl_app_lt X Y p : p <= length X -> cntl (X ++ Y) p = cntl X p.
Proof. intros H. apply cnt_ext. intros i Hi. rewrite app_nth1 by lia. reflexivity. Qed.

Lemma cntl_app X Y p : cntl (X ++ Y) (length X + p) = cntl X (length X) + cntl Y p.
Proof.
  unfold cntl. rewrite cnt_add. f_equal.
  - apply cnt_ext. intros i Hi. now rewrite app_nth1.
  - apply cnt_ext. intros i Hi. apply nth_app_off.
Qed.

Lemma filter_ltS (ls : list nat) m : NoDup ls ->
  length (filter (fun x => Nat.ltb x (S m)) ls) = length (filter (fun x => Nat.ltb x m) ls) + (if existsb (fun x => Nat.eqb x m) ls then 1 else 0).
Proof.
  induction 1 as [|x l Hx ND IH]; [reflexivity|]. cbn [filter existsb].
  destruct (Nat.ltb_spec x (S m)), (Nat.ltb_spec x m), (Nat.eqb_spec x m); try lia; cbn [length orb]; rewrite ?IH; try lia.
  subst x. replace (existsb (fun x => Nat.eqb x m) l) with false; [lia|]. symmetry.
  destruct (existsb (fun x => Nat.eqb x m) l) eqn:E; auto. apply existsb_exists in E as (y & Hy & Ey). apply Nat.eqb_eq in Ey. subst y. contradiction.
Qed.

Lemma cnt_labels (ls : list nat) m : NoDup ls -> cnt (fun i => existsb (fun x => Nat.eqb x i) ls) m = length (filter (fun x => Nat.ltb x m) ls).
Proof.
  intros ND. induction m as [|m IH].
  - cbn [cnt]. induction ls; auto. inversion ND; subst. cbn. auto.
  - cbn [cnt]. rewrite IH, filter_ltS by auto. destruct (existsb _ ls); lia.
Qed.

(** Labels of a dense row below a bound. *)
Lemma dlab_cnt (sel : item -> bool) its m : m <= 256 ->
  NoDup (map i_label (filter sel its)) ->
  cntl (map (fun l => existsb (fun it => sel it && Nat.eqb (i_label it) l) its) (seq 0 256)) m = length (filter (fun it => Nat.ltb (i_label it) m) (filter sel its)).
Proof.
  intros Hm ND. unfold cntl. rewrite (cnt_ext _ (fun i => existsb (fun x => Nat.eqb x i) (map i_label (filter sel its)))).
  - rewrite cnt_labels by auto. induction (filter sel its) as [|x l IH]; [reflexivity|]. cbn [map filter]. inversion ND; subst.
    destruct (Nat.ltb (i_label x) m); cbn [length]; rewrite IH; auto.
  - intros i Hi. rewrite nth_map_seq by lia. clear. induction its as [|x l IH]; [reflexivity|]. cbn [existsb filter].
    destruct (sel x); cbn [andb map existsb]; rewrite IH; auto.
Qed.

Lemma filter_all {A} (f : A -> bool) l : (forall x, In x l -> f x = true) -> filter f l = l.
Proof. induction l; intros H; cbn; auto. rewrite H by (left; auto). f_equal. apply IHl. intros. apply H. now right. Qed.
Lemma filter_none {A} (f : A -> bool) l : (forall x, In x l -> f x = false) -> filter f l = [].
Proof. induction l; intros H; cbn; auto. rewrite H by (left; auto). apply IHl. intros. apply H. now right. Qed.
Lemma filter_filter {A} (f g : A -> bool) l : filter f (filter g l) = filter (fun x => g x && f x) l.
Proof. induction l; cbn; auto. destruct (g a); cbn; [destruct (f a)|]; rewrite IHl; auto. Qed.

Lemma sorted_lt_NoDup l : StronglySorted lt l -> NoDup l.
Proof.
  induction 1 as [|x l S IH F]; constructor; auto. intros H. rewrite Forall_forall in F. specialize (F x H). lia.
Qed.
Lemma sorted_filter {A} (f : A -> nat) (p : A -> bool) l : StronglySorted lt (map f l) -> StronglySorted lt (map f (filter p l)).
Proof.
  induction l as [|x l IH]; intros H; [constructor|]. cbn [map] in H. inversion H as [|a b S F]; subst. cbn [filter].
  destruct (p x); auto. cbn [map]. constructor; auto. rewrite Forall_forall in *. intros y Hy. apply F.
  apply in_map_iff in Hy as (z & <- & Hz). apply in_map. now apply filter_In in Hz.
Qed.

(** Among the selected items of a node, those with a label up to that of [it]. *)
Lemma upto_label n A it B (sel : item -> bool) : nwf n -> items n = A ++ it :: B -> i_term it = false ->
  (forall x, sel x = true -> noterm x = true) ->
  filter (fun x => Nat.ltb (i_label x) (i_label it + 1)) (filter sel (items n)) = filter sel (A ++ [it]).
Proof.
  intros W E T Hs. pose proof (labels_sorted n W) as S. rewrite E in *. 
  replace (A ++ it :: B) with ((A ++ [it]) ++ B) in * by (rewrite <- app_assoc; reflexivity).
  rewrite (filter_app noterm), map_app in S. rewrite (filter_app sel), filter_app.
  assert (SP : forall x y, In x (map i_label (filter noterm (A ++ [it]))) -> In y (map i_label (filter noterm B)) -> x < y).
  { clear -S. revert S. generalize (map i_label (filter noterm (A ++ [it]))) (map i_label (filter noterm B)). intros l l'.
    induction l as [|a l IH]; intros S x y Hx Hy; [destruct Hx|]. cbn [app] in S. inversion S as [|u v S1 F]; subst.
    destruct Hx as [<-|Hx]; [rewrite Forall_forall in F; apply F; apply in_or_app; auto|]. apply IH; auto. }
  assert (INit : In it (filter noterm (A ++ [it]))).
  { apply filter_In. split; [apply in_or_app; right; left; auto|]. unfold noterm. now rewrite T. }
  rewrite (filter_none _ (filter sel B)).
  - rewrite app_nil_r. apply filter_all. intros x Hx. apply filter_In in Hx as [Hx Hsx]. apply Nat.ltb_lt.
    assert (Sl : StronglySorted lt (map i_label (filter noterm A) ++ [i_label it])).
    { clear -S T. rewrite filter_app, map_app in S. cbn [filter] in S. unfold noterm in S at 2. rewrite T in S. cbn [negb map] in S.
      revert S. generalize (map i_label (filter noterm A) ++ [i_label it]) (map i_label (filter noterm B)). intros l l' S.
      induction l as [|a l IH]; [constructor|]. cbn [app] in S. inversion S as [|u v S1 F]; subst. constructor; auto.
      apply Forall_app in F. apply F. }
    apply in_app_or in Hx as [Hx|[<-|[]]]; [|lia].
    assert (L : i_label x < i_label it); [|lia].
    clear -Sl Hx Hsx Hs. revert Sl. assert (I : In (i_label x) (map i_label (filter noterm A))) by (apply in_map; apply filter_In; split; auto).
    revert I. generalize (map i_label (filter noterm A)). intros l. induction l as [|a l IH]; intros I Sl; [destruct I|].
    cbn [app] in Sl. inversion Sl as [|u v S1 F]; subst. destruct I as [->|I]; [|apply IH; auto]. rewrite Forall_forall in F. apply F. apply in_or_app. right. left. auto.
  - intros x Hx. apply filter_In in Hx as [Hx Hsx]. apply Nat.ltb_ge.
    assert (i_label it < i_label x); [|lia]. apply SP; apply in_map; [exact INit|]. apply filter_In. split; auto.
Qed.

(** Rank in the dense label and has-child vectors. *)
Lemma dense_rank (sel : item -> bool) (D1 D2 : list tnode) n A it B :
  let row n := map (fun l => existsb (fun it => sel it && Nat.eqb (i_label it) l) (items n)) (seq 0 256) in
  Forall nwf (D1 ++ n :: D2) -> (forall x, sel x = true -> noterm x = true) ->
  items n = A ++ it :: B -> i_term it = false -> 
  cntl (flat_map row (D1 ++ n :: D2)) (length D1 * 256 + i_label it + 1) = length (filter sel (flat_map items D1 ++ A ++ [it])).
Proof.
  intros row W Hs E T.
  assert (RL : forall m, length (row m) = 256) by (intros; unfold row; now rewrite map_length, seq_length).
  assert (LD : length (flat_map row D1) = length D1 * 256) by (apply flat_map_const; auto).
  apply Forall_app in W as [W1 W2]. inversion W2 as [|x y Wn W3]; subst.
  assert (LB : i_label it < 256) by (apply (label_byte n); auto; rewrite E; apply in_or_app; right; left; auto).
  assert (ND : forall m, nwf m -> NoDup (map i_label (filter sel (items m)))).
  { intros m Wm. apply sorted_lt_NoDup. 
    replace (filter sel (items m)) with (filter sel (filter noterm (items m))).
    - apply sorted_filter. now apply labels_sorted.
    - rewrite filter_filter. apply filter_ext. intros x. destruct (sel x) eqn:Sx; [rewrite (Hs x Sx)|]; auto. apply andb_false_r. }
  rewrite flat_map_app. replace (length D1 * 256 + i_label it + 1) with (length (flat_map row D1) + (i_label it + 1)) by lia.
  rewrite cntl_app. cbn [flat_map]. rewrite cntl_app_lt by (rewrite RL; lia).
  unfold row at 3. rewrite dlab_cnt; auto; [|lia].
  rewrite (upto_label n A it B sel Wn E T Hs). rewrite (filter_app sel (flat_map items D1)), app_length. f_equal.
  clear -W1 RL ND. induction D1 as [|m D1 IH]; [reflexivity|]. inversion W1; subst. cbn [flat_map]. rewrite app_length, cntl_app.
  rewrite IH by auto. rewrite filter_app, app_length. f_equal. rewrite RL. unfold row. rewrite dlab_cnt by auto.
  f_equal. apply filter_all. intros x Hx. apply filter_In in Hx as [Hx _]. apply Nat.ltb_lt. now apply (label_byte m).
Qed.

(* ------------------------------------------------------------------ *)
(** ** Lists *)
Lemma find_split {A} (f : A -> bool) l x : find f l = Some x ->
  exists a b, l = a ++ x :: b /\ f x = true /\ forall y, In y a -> f y = false.
Proof.
  induction l as [|h t IH]; cbn [find]; [discriminate|]. destruct (f h) eqn:E.
  - intros H. inversion H; subst. exists [], t. repeat split; auto; try (intros y []).
  - intros H. destruct (IH H) as (a & b & -> & H1 & H2). exists (h :: a), b. repeat split; auto. intros y [<-|Hy]; auto.
Qed.

Lemma existsb_find {A} (f : A -> bool) l : existsb f l = match find f l with Some _ => true | None => false end.
Proof. induction l; cbn [existsb find]; auto. destruct (f a); auto. Qed.

Lemma nth_error_filter {A} (p : A -> bool) X x Y : p x = true ->
  nth_error (filter p (X ++ x :: Y)) (length (filter p X)) = Some x.
Proof. intros H. rewrite filter_app. cbn [filter]. rewrite H. rewrite nth_error_app2, Nat.sub_diag by lia. reflexivity. Qed.

Lemma nth_flat_const {A B} (f : A -> list B) k l j q d d' : (forall x, length (f x) = k) -> j < length l -> q < k ->
  nth (j * k + q) (flat_map f l) d = nth q (f (nth j l d')) d.
Proof.
  intros Hk. revert j. induction l as [|x l IH]; intros j Hj Hq; [cbn in Hj; lia|]. destruct j as [|j].
  - cbn [flat_map nth Nat.mul Nat.add]. now rewrite app_nth1 by (rewrite Hk; lia).
  - cbn [flat_map nth]. rewrite app_nth2 by (rewrite Hk; lia). rewrite Hk. rewrite <- IH by (cbn in Hj; lia). f_equal. lia.
Qed.

Lemma slice_flat {A} (f : A -> bytes) k l j x : (forall y, In y l -> length (f y) = k) -> nth_error l j = Some x ->
  slice (flat_map f l) (j * k) (j * k + k) = Ok (f x).
Proof.
  revert j. induction l as [|y l IH]; intros j Hk Hj; [destruct j; discriminate|].
  assert (Hy := Hk y (or_introl eq_refl)). destruct j as [|j].
  - cbn in Hj. injection Hj as ->. unfold slice. cbn [flat_map Nat.mul Nat.add Nat.leb andb]. rewrite app_length, Hy.
    destruct (Nat.leb_spec k (k + length (flat_map f l))); [|lia]. rewrite Nat.sub_0_r. cbn [skipn].
    rewrite firstn_app. rewrite firstn_all2 by lia. replace (k - length (f x)) with 0 by lia. cbn [firstn]. now rewrite app_nil_r.
  - cbn [nth_error] in Hj. specialize (IH j (fun z Hz => Hk z (or_intror Hz)) Hj). unfold slice in *. cbn [flat_map]. rewrite app_length, Hy.
    destruct (Nat.leb_spec (j * k) (j * k + k)); [|lia]. destruct (Nat.leb_spec (S j * k) (S j * k + k)); [|lia]. cbn [andb] in *.
    destruct (Nat.leb_spec (j * k + k) (length (flat_map f l))); [|discriminate].
    destruct (Nat.leb_spec (S j * k + k) (k + length (flat_map f l))); [|lia].
    replace (S j * k + k - S j * k) with (j * k + k - j * k) by lia. rewrite <- IH. f_equal. f_equal.
    replace (S j * k) with (length (f y) + j * k) by lia. rewrite skipn_app. rewrite skipn_all2 by lia. cbn [app]. f_equal. lia.
Qed.

Section Get.
Variable fp : bytes -> N.
Variable c : config.
Hypothesis CO : cfg_ok c.
Notation slen := (c_suffixLen c).

(** ** The suffix check that ends a lookup *)
Definition smatch (stored : N) (key : bytes) (level : nat) : bool :=
  match c_type c with
  | NoneSuffix => true
  | RealSuffix => (stored =? 0)%N ||
      (negb (Nat.ltb (length key) level || Nat.ltb ((length key - level) * 8) (c_realLen c)) &&
       (stored =? sfx fp (c_type c) (c_hashLen c) (c_realLen c) key level)%N)
  | _ => (stored =? sfx fp (c_type c) (c_hashLen c) (c_realLen c) key level)%N
  end.

Lemma nth_sufbits vs j q : j < length vs -> q < slen -> nth (j * slen + q) (sufbits c vs) false = tb (nth j vs 0%N) q.
Proof.
  intros Hj Hq. unfold sufbits. rewrite (nth_flat_const (fun v => map (tb v) (seq 0 slen)) slen vs j q false 0%N); auto.
  - now rewrite nth_map_seq.
  - intros. now rewrite map_length, seq_length.
Qed.

Lemma slen_pos : c_type c <> NoneSuffix -> 0 < slen <= 64.
Proof.
  intros H. destruct CO as [CT CL]. split; auto. unfold c_suffixLen in *. destruct (Nat.eq_dec (c_hashLen c + c_realLen c) 0) as [Z|]; [|lia].
  exfalso. apply H. rewrite CT. replace (c_hashLen c) with 0 by lia. replace (c_realLen c) with 0 by lia. reflexivity.
Qed.

Lemma suffix_read_stored xv its j it : sx_rep fp c xv its -> c_type c <> NoneSuffix -> nth_error its j = Some it ->
  wf_bytes (fst (i_kv it)) = true -> suffix_read xv j = Ok (sufv fp c it).
Proof.
  intros [XT X] NT Hj Hw. destruct (X NT) as (X1 & X2 & X3). destruct (slen_pos NT) as [SP SL].
  assert (Lj : j < length its) by (apply nth_error_Some; congruence).
  assert (XS : xv_suffixLen xv = slen) by (unfold xv_suffixLen, c_suffixLen; congruence).
  destruct (suffix_read_spec xv _ j X3) as (r & Er & Hr).
  - rewrite XS. lia.
  - rewrite XS, sufbits_length, map_length. nia.
  - rewrite Er. f_equal. apply N.bits_inj. intros q. 
    assert (E : tb r (N.to_nat q) = tb (sufv fp c it) (N.to_nat q)); [|unfold tb in E; rewrite N2Nat.id in E; exact E].
    rewrite Hr, XS. destruct (Nat.ltb_spec (N.to_nat q) slen) as [L|L]; cbn [andb].
    + rewrite nth_sufbits by (rewrite ?map_length; auto). f_equal. apply nth_error_nth. rewrite nth_error_map, Hj. reflexivity.
    + symmetry. unfold tb.
      assert (B : (sufv fp c it < 2 ^ N.of_nat slen)%N) by (apply sfx_bound; auto).
      destruct (N.eq_dec (sufv fp c it) 0) as [->|NZ]; [apply N.bits_0|].
      apply N.bits_above_log2. apply N.log2_lt_pow2 in B; lia.
Qed.

Lemma checkEquality_spec xv its j it key level : sx_rep fp c xv its -> nth_error its j = Some it ->
  wf_bytes (fst (i_kv it)) = true ->
  checkEquality fp xv j key level = Ok (smatch (sufv fp c it) key level).
Proof.
  intros R Hj Hw. pose proof R as [[XT _] X]. unfold checkEquality, smatch. rewrite XT.
  destruct (suffixType_eqb (c_type c) NoneSuffix) eqn:E.
  { destruct (c_type c); try discriminate. reflexivity. }
  assert (NT : c_type c <> NoneSuffix) by (intros H; rewrite H in E; discriminate).
  destruct (X NT) as (X1 & X2 & X3). destruct (slen_pos NT) as [SP SL].
  assert (Lj : j < length its) by (apply nth_error_Some; congruence).
  assert (XS : xv_suffixLen xv = slen) by (unfold xv_suffixLen, c_suffixLen; congruence).
  rewrite (suffix_read_stored xv its j it R NT Hj Hw). rewrite XS, (proj1 X3), sufbits_length, map_length.
  destruct (Nat.leb_spec (length its * slen) (j * slen)); [nia|]. cbn [bind].
  rewrite X1, X2, (sfx_spec fp). cbn [bind].
  destruct (c_type c); cbn [suffixType_eqb andb]; try reflexivity; [congruence|].
  destruct (N.eqb (sufv fp c it) 0); [reflexivity|]. cbn [orb].
  destruct (Nat.ltb (length key) level || Nat.ltb ((length key - level) * 8) (c_realLen c)); reflexivity.
Qed.

Definition leafres (it : item) (q : bytes) (level : nat) : option bytes :=
  if smatch (sufv fp c it) q level then Some (ivalue c it) else None.

Definition leaf_ok (it : item) : Prop := wf_bytes (fst (i_kv it)) = true /\ length (ivalue c it) = c_valueSize c.

Lemma check_value_spec xv vv its j it key level : sx_rep fp c xv its -> vv_rep c vv its -> Forall leaf_ok its ->
  nth_error its j = Some it -> check_value fp xv vv j key level = Ok (leafres it key level).
Proof.
  intros RX [V1 V2] F Hj. unfold check_value.
  rewrite Forall_forall in F. destruct (F it (nth_error_In _ _ Hj)) as [L1 L2].
  rewrite (checkEquality_spec xv its j it); auto. cbn [bind]. unfold leafres.
  destruct (smatch (sufv fp c it) key level); auto. unfold valueVector_get. rewrite V1, V2.
  rewrite (slice_flat (ivalue c) (c_valueSize c) its j it); auto. intros y Hy. apply (F y Hy).
Qed.

(* ------------------------------------------------------------------ *)
(** ** Lookup in the trie *)

Definition alook (n : tnode) (q : bytes) : option item :=
  find (fun it => noterm it && Nat.eqb (i_label it) (nth (tn_d n) q 0)) (items n).
Definition aend_dense (n : tnode) (q : bytes) : option bytes :=
  match find i_term (items n) with Some it => leafres it q (tn_d n + 1) | None => None end.
Definition aend_sparse (n : tnode) (q : bytes) (depth : nat) : option bytes :=
  match items n with
  | it :: _ => if Nat.eqb (i_label it) labelTerminator && negb (hasc it) then leafres it q (depth + 1) else None
  | [] => None
  end.

(** [dl] dense levels remain. *)
Fixpoint aget (fuel dl : nat) (n : tnode) (q : bytes) : option bytes :=
  match fuel with
  | O => None
  | S f =>
      let look dl' := match alook n q with
        | None => None
        | Some it => if hasc it then aget f dl' (mkchild it) q else leafres it q (tn_d n + 1)
        end in
      match dl with
      | O => if Nat.leb (length q) (tn_pd n) then aend_sparse n q (tn_pd n) else
             if is_prefixb (nprefix n) (skipn (tn_pd n) q) then
               if Nat.leb (length q) (tn_d n) then aend_sparse n q (tn_d n) else look O
             else None
      | S dl' => if is_prefixb (nprefix n) (skipn (tn_pd n) q) then
               if Nat.leb (length q) (tn_d n) then aend_dense n q else look dl'
             else None
      end
  end.

Lemma nprefix_length n : nwf n -> length (nprefix n) = tn_d n - tn_pd n.
Proof.
  intros W. unfold nprefix. rewrite firstn_length, skipn_length. 
  assert (tn_d n <= length (key0 (tn_kvs n))); [|pose proof (w_pd n W); lia].
  pose proof (w_ne n W). pose proof (w_share n W). unfold key0. destruct (tn_kvs n); [congruence|]. cbn [hd].
  eapply share_length; eauto. left; auto.
Qed.

Lemma nodup_noterm n : nwf n -> NoDup (map i_label (filter noterm (items n))).
Proof. intros. now apply sorted_lt_NoDup, labels_sorted. Qed.

Lemma alook_unique n q it it' : nwf n -> alook n q = Some it -> In it' (items n) -> noterm it' = true ->
  i_label it' = nth (tn_d n) q 0 -> it' = it.
Proof.
  intros W H HI HT HL. destruct (find_split _ _ _ H) as (A & B & E & F & _). apply andb_prop in F as [F1 F2]. apply Nat.eqb_eq in F2.
  pose proof (nodup_noterm n W) as ND. 
  assert (I1 : In it (filter noterm (items n))) by (apply filter_In; split; auto; rewrite E; apply in_or_app; right; left; auto).
  assert (I2 : In it' (filter noterm (items n))) by (apply filter_In; auto).
  clear -ND I1 I2 HL F2. induction (filter noterm (items n)) as [|x l IH]; [destruct I1|]. cbn [map] in ND. inversion ND; subst.
  destruct I1 as [<-|I1], I2 as [<-|I2]; auto.
  - exfalso. apply H1. rewrite F2, <- HL. now apply in_map.
  - exfalso. apply H1. rewrite HL, <- F2. now apply in_map.
Qed.

(** *** Dense *)
Section OneDense.
Variables (ld : loudsDense) (h : nat) (D1 D2 : list tnode) (n : tnode) (q : bytes).
Hypothesis R : ld_rep fp c ld h (D1 ++ n :: D2).
Hypothesis W : Forall nwf (D1 ++ n :: D2).

Lemma Wn : nwf n.
Proof. apply Forall_app in W as [_ W']. now inversion W'. Qed.

Lemma d_checkPrefix depth : depth <= length q ->
  checkPrefix (ld_prefix ld) q depth (length D1) = Ok (if is_prefixb (nprefix n) (skipn depth q) then (length (nprefix n), true) else (0, false)).
Proof.
  intros H. rewrite (checkPrefix_spec _ _ q depth (length D1) (ldr_pre _ _ _ _ _ R)); auto.
  - rewrite map_app. cbn [map]. rewrite app_nth2 by (rewrite map_length; lia). rewrite map_length, Nat.sub_diag. reflexivity.
  - rewrite map_length, app_length. cbn [length]. lia.
Qed.

Lemma rv_isSet_spec bsz v B p : rv_rep bsz v B -> p < length B -> rv_isSet v p = Ok (nth p B false).
Proof. intros [H _] L. unfold rv_isSet. now apply bv_isSet_spec. Qed.

Lemma d_isPrefix : rv_isSet (ld_isPrefix ld) (length D1) = Ok (nterm n).
Proof.
  destruct (ldr_isp _ _ _ _ _ R) as [pad RP]. rewrite (rv_isSet_spec _ _ _ _ RP).
  - rewrite map_app. cbn [map]. rewrite <- app_assoc. rewrite app_nth2 by (rewrite map_length; lia). rewrite map_length, Nat.sub_diag. reflexivity.
  - rewrite !app_length, map_length, app_length. cbn [length]. lia.
Qed.

Lemma row_read (row : tnode -> list bool) l : (forall m, length (row m) = 256) -> l < 256 ->
  nth (length D1 * 256 + l) (flat_map row (D1 ++ n :: D2)) false = nth l (row n) false.
Proof.
  intros H L. rewrite (nth_flat_const row 256 (D1 ++ n :: D2) (length D1) l false n); auto.
  - rewrite app_nth2, Nat.sub_diag by lia. reflexivity.
  - rewrite app_length. cbn [length]. lia.
Qed.

Lemma row_len (row : tnode -> list bool) : (forall m, length (row m) = 256) -> length (flat_map row (D1 ++ n :: D2)) = length (D1 ++ n :: D2) * 256.
Proof. intros H. now apply flat_map_const. Qed.

Lemma d_label l : l < 256 -> rv_isSet (ld_label ld) (length D1 * 256 + l) = Ok (existsb (fun it => noterm it && Nat.eqb (i_label it) l) (items n)).
Proof.
  intros L. rewrite (rv_isSet_spec _ _ _ _ (ldr_label _ _ _ _ _ R)).
  - rewrite row_read by (auto using dlab_length). unfold dlab. now rewrite nth_map_seq.
  - rewrite row_len by (intros; apply dlab_length). rewrite app_length. cbn [length]. lia.
Qed.

Lemma d_hasc l : l < 256 -> rv_isSet (ld_hasChild ld) (length D1 * 256 + l) = Ok (existsb (fun it => noterm it && hasc it && Nat.eqb (i_label it) l) (items n)).
Proof.
  intros L. rewrite (rv_isSet_spec _ _ _ _ (ldr_hasc _ _ _ _ _ R)).
  - rewrite row_read by (auto using dhas_length). unfold dhas. now rewrite nth_map_seq.
  - rewrite row_len by (intros; apply dhas_length). rewrite app_length. cbn [length]. lia.
Qed.

Lemma rankDense_at v B p : rv_rep rankDenseBlockSize v B -> p < length B -> rankDense v p = Ok (cntl B (p + 1)).
Proof. intros H L. unfold rankDense. apply rank_at_spec; try assumption; cbv; [lia|reflexivity]. Qed.

Lemma d_rank_label A it B : items n = A ++ it :: B -> i_term it = false ->
  rankDense (ld_label ld) (length D1 * 256 + i_label it) = Ok (length (filter noterm (flat_map items D1 ++ A ++ [it]))).
Proof.
  intros E T. assert (LB : i_label it < 256) by (apply (label_byte n); [apply Wn|rewrite E; apply in_or_app; right; left; auto]).
  rewrite (rankDense_at _ _ _ (ldr_label _ _ _ _ _ R)).
  - f_equal. apply (dense_rank noterm D1 D2 n A it B); auto.
  - rewrite row_len by (intros; apply dlab_length). rewrite app_length. cbn [length]. lia.
Qed.

Lemma d_rank_hasc A it B : items n = A ++ it :: B -> i_term it = false ->
  rankDense (ld_hasChild ld) (length D1 * 256 + i_label it) = Ok (length (filter (fun x => noterm x && hasc x) (flat_map items D1 ++ A ++ [it]))).
Proof.
  intros E T. assert (LB : i_label it < 256) by (apply (label_byte n); [apply Wn|rewrite E; apply in_or_app; right; left; auto]).
  rewrite (rankDense_at _ _ _ (ldr_hasc _ _ _ _ _ R)).
  - f_equal. apply (dense_rank (fun x => noterm x && hasc x) D1 D2 n A it B); auto. intros x Hx. now apply andb_prop in Hx.
  - rewrite row_len by (intros; apply dhas_length). rewrite app_length. cbn [length]. lia.
Qed.

(** Terminators. *)
Lemma items_term m : nwf m -> filter i_term (items m) = if nterm m then firstn 1 (items m) else [].
Proof.
  intros Wm. unfold nterm. destruct (items m) as [|it r] eqn:E; [reflexivity|]. pose proof (tail_noterm m it r E) as T.
  assert (F : filter i_term r = []) by (apply filter_none; rewrite Forall_forall in T; auto).
  assert (X : existsb i_term r = false).
  { destruct (existsb i_term r) eqn:Ex; auto. apply existsb_exists in Ex as (x & Hx & Tx). rewrite Forall_forall in T. rewrite (T x Hx) in Tx. discriminate. }
  cbn [filter existsb firstn]. rewrite F, X, orb_false_r. now destruct (i_term it).
Qed.

Lemma cnt_terms ns : Forall nwf ns -> cntl (map nterm ns) (length ns) = length (filter i_term (flat_map items ns)).
Proof.
  intros Wn'. rewrite <- (app_nil_r (map nterm ns)). rewrite (cntl_map_filter nterm ns []) by lia. rewrite firstn_all.
  induction Wn' as [|m ns Wm _ IH]; [reflexivity|]. cbn [filter flat_map]. rewrite filter_app, app_length, (items_term m Wm).
  pose proof (items_pos m Wm). destruct (nterm m); cbn [length]; rewrite IH; [|reflexivity].
  rewrite firstn_length. lia.
Qed.

Lemma d_rank_isp : rankDense (ld_isPrefix ld) (length D1) = Ok (length (filter i_term (flat_map items (D1 ++ [n])))).
Proof.
  destruct (ldr_isp _ _ _ _ _ R) as [pad RP]. rewrite (rankDense_at _ _ _ RP).
  - f_equal. replace (D1 ++ n :: D2) with ((D1 ++ [n]) ++ D2) by (rewrite <- app_assoc; reflexivity). rewrite map_app, <- app_assoc.
    replace (length D1 + 1) with (length (D1 ++ [n])) by (rewrite app_length; reflexivity).
    rewrite cntl_app_lt by (now rewrite map_length). apply cnt_terms.
    apply Forall_app in W as [W1 W2]. apply Forall_app. split; auto. inversion W2; auto.
  - rewrite !app_length, map_length, app_length. cbn [length]. lia.
Qed.

(** All terminators of the node come before any labelled item. *)
Lemma terms_upto A it B : items n = A ++ it :: B -> i_term it = false -> filter i_term (items n) = filter i_term (A ++ [it]).
Proof.
  intros E T. rewrite E, !filter_app. cbn [filter]. rewrite T. f_equal. apply filter_none. intros x Hx.
  destruct (A ++ it :: B) as [|i0 r] eqn:E2; [destruct A; discriminate|]. pose proof (tail_noterm n i0 r E) as F. rewrite Forall_forall in F.
  apply F. destruct A as [|a A]; cbn [app] in E2; inversion E2; subst; auto. apply in_or_app. right. right. auto.
Qed.

Lemma count_split (l : list item) : Forall (fun x => i_term x = true -> hasc x = false) l ->
  length (filter noterm l) + length (filter i_term l) = length (filter (fun x => noterm x && hasc x) l) + length (filter leafb l).
Proof.
  induction 1 as [|x l Hx _ IH]; [reflexivity|]. cbn [filter]. unfold noterm, leafb in *. destruct (i_term x), (hasc x); cbn [negb andb length] in *; try lia.

Qed.

Lemma items_term_leaf ns : Forall (fun x => i_term x = true -> hasc x = false) (flat_map items ns).
Proof.
  apply Forall_forall. intros x Hx T. apply in_flat_map in Hx as (m & Hm & Hx). destruct (hasc x) eqn:E; auto.
  rewrite (item_hasc_noterm m x Hx E) in T. discriminate.
Qed.

Lemma Forall_upto (P : item -> Prop) A it B : items n = A ++ it :: B -> Forall P (flat_map items (D1 ++ n :: D2)) -> Forall P (flat_map items D1 ++ A ++ [it]).
Proof.
  intros E F. rewrite flat_map_app in F. cbn [flat_map] in F. rewrite E in F. apply Forall_app in F as [F1 F2].
  apply Forall_app. split; auto. apply Forall_app in F2 as [F2 _]. replace (A ++ it :: B) with ((A ++ [it]) ++ B) in F2 by (rewrite <- app_assoc; reflexivity).
  now apply Forall_app in F2.
Qed.

Lemma d_sum A it B : items n = A ++ it :: B -> i_term it = false ->
  length (filter noterm (flat_map items D1 ++ A ++ [it])) + length (filter i_term (flat_map items (D1 ++ [n]))) =
  length (filter (fun x => noterm x && hasc x) (flat_map items D1 ++ A ++ [it])) + length (filter leafb (flat_map items D1 ++ A ++ [it])).
Proof.
  intros E T. rewrite <- count_split.
  - f_equal. rewrite flat_map_app. cbn [flat_map]. rewrite app_nil_r, !filter_app, (terms_upto A it B E T), filter_app. reflexivity.
  - apply (Forall_upto _ A it B E). apply items_term_leaf.
Qed.

(** The value position of a leaf. *)
Lemma d_suffixPos_leaf A it B : items n = A ++ it :: B -> i_term it = false -> hasc it = false ->
  ld_suffixPos ld (length D1 * 256 + i_label it) false = Ok (length (filter leafb (flat_map items D1 ++ A))).
Proof.
  intros E T H. unfold ld_suffixPos. rewrite (d_rank_label A it B E T), (d_rank_hasc A it B E T). cbn [bind].
  assert (LB : i_label it < 256) by (apply (label_byte n); [apply Wn|rewrite E; apply in_or_app; right; left; auto]).
  replace ((length D1 * 256 + i_label it) / 256) with (length D1) by (rewrite Nat.add_comm, Nat.div_add, Nat.div_small by lia; lia).
  rewrite d_rank_isp. cbn [bind]. pose proof (d_sum A it B E T) as S.
  assert (L1 : length (filter leafb (flat_map items D1 ++ A ++ [it])) = length (filter leafb (flat_map items D1 ++ A)) + 1).
  { rewrite app_assoc, filter_app, app_length. cbn [filter]. unfold leafb at 2. rewrite H. reflexivity. }
  unfold sub_chk. match goal with |- bind (if Nat.leb ?a ?b then _ else _) _ = _ => destruct (Nat.leb_spec a b); [|lia] end. cbn [bind]. f_equal. lia.
Qed.

Lemma d_childID A it B : items n = A ++ it :: B -> i_term it = false -> hasc it = true ->
  ld_childNodeID ld (length D1 * 256 + i_label it) = Ok (1 + length (filter hasc (flat_map items D1 ++ A))).
Proof.
  intros E T H. unfold ld_childNodeID. rewrite (d_rank_hasc A it B E T). f_equal.
  rewrite app_assoc, filter_app, app_length. cbn [filter]. unfold noterm at 2. rewrite T, H. cbn [negb andb length].
  rewrite Nat.add_comm. f_equal. f_equal. apply filter_ext_in. intros x Hx.
  pose proof (items_term_leaf (D1 ++ n :: D2)) as F. apply (Forall_upto _ A it B E) in F. rewrite Forall_forall in F.
  specialize (F x). rewrite app_assoc in F. unfold noterm. destruct (i_term x); [|reflexivity]. rewrite F; auto. apply in_or_app. auto.
Qed.

(** The value position of a terminator. *)
Lemma d_suffixPos_term it r : items n = it :: r -> i_term it = true ->
  ld_suffixPos ld (length D1 * 256) true = Ok (length (filter leafb (flat_map items D1))).
Proof.
  intros E T. unfold ld_suffixPos.
  replace (length D1 * 256 / 256) with (length D1) by (rewrite Nat.div_mul by lia; lia).
  pose proof Wn as WN. pose proof (tail_noterm n it r E) as TT. rewrite Forall_forall in TT.
  assert (HT : hasc it = false).
  { destruct (hasc it) eqn:X; auto. rewrite (item_hasc_noterm n it) in T; auto. rewrite E. left. auto. }
  assert (RT : filter i_term (flat_map items (D1 ++ [n])) = filter i_term (flat_map items D1) ++ [it]).
  { rewrite flat_map_app. cbn [flat_map]. rewrite app_nil_r, filter_app, E. cbn [filter]. rewrite T. f_equal. f_equal. apply filter_none. auto. }
  pose proof (items_term_leaf D1) as F1. apply count_split in F1.
  (* the labels at or below 0 *)
  assert (RL : forall (row : tnode -> list bool) (sel : item -> bool), (forall m, row m = map (fun l => existsb (fun it => sel it && Nat.eqb (i_label it) l) (items m)) (seq 0 256)) ->
     (forall x, sel x = true -> noterm x = true) ->
     cntl (flat_map row (D1 ++ n :: D2)) (length D1 * 256 + 1) = length (filter sel (flat_map items D1)) + length (filter (fun x => Nat.ltb (i_label x) 1) (filter sel (items n)))).
  { intros row sel Hrow Hs. assert (RLn : forall m, length (row m) = 256) by (intros; rewrite Hrow; now rewrite map_length, seq_length).
    assert (ND : forall m, nwf m -> NoDup (map i_label (filter sel (items m)))).
    { intros m Wm. apply sorted_lt_NoDup. 
      replace (filter sel (items m)) with (filter sel (filter noterm (items m))).
      - apply sorted_filter. now apply labels_sorted.
      - rewrite filter_filter. apply filter_ext. intros x. destruct (sel x) eqn:Sx; [rewrite (Hs x Sx)|]; auto. apply andb_false_r. }
    rewrite flat_map_app. replace (length D1 * 256 + 1) with (length (flat_map row D1) + 1) by (rewrite (flat_map_const row 256) by auto; lia).
    rewrite cntl_app. f_equal.
    - apply Forall_app in W as [W1 _]. clear -W1 RLn ND Hrow. induction D1 as [|m D3 IH]; [reflexivity|]. inversion W1; subst. cbn [flat_map]. rewrite app_length, cntl_app.
      rewrite IH by auto. rewrite filter_app, app_length. f_equal. rewrite RLn, Hrow. rewrite dlab_cnt by auto.
      f_equal. apply filter_all. intros x Hx. apply filter_In in Hx as [Hx _]. apply Nat.ltb_lt. now apply (label_byte m).
    - cbn [flat_map]. rewrite cntl_app_lt by (rewrite RLn; lia). rewrite Hrow. apply dlab_cnt; auto. lia. }
  assert (PL : length D1 * 256 < length (D1 ++ n :: D2) * 256) by (rewrite app_length; cbn [length]; lia).
  rewrite (rankDense_at _ _ _ (ldr_label _ _ _ _ _ R)) by (rewrite row_len by (intros; apply dlab_length); auto).
  rewrite (rankDense_at _ _ _ (ldr_hasc _ _ _ _ _ R)) by (rewrite row_len by (intros; apply dhas_length); auto).
  rewrite (RL (fun n => dlab (items n)) noterm) by auto. rewrite (RL (fun n => dhas (items n)) (fun x => noterm x && hasc x)); auto.
  2:{ intros x Hx. now apply andb_prop in Hx. }
  cbn [bind]. rewrite d_rank_isp. cbn [bind]. rewrite RT, app_length. cbn [length].
  pose proof (d_label 0 ltac:(lia)) as DL. pose proof (d_hasc 0 ltac:(lia)) as DH. rewrite Nat.add_0_r in DL, DH. rewrite DL, DH. cbn [bind].
  (* the item labelled 0, if any *)
  assert (Z : forall sel, filter (fun x => Nat.ltb (i_label x) 1) (filter sel (items n)) = filter (fun x => sel x && Nat.eqb (i_label x) 0) (items n)).
  { intros sel. rewrite filter_filter. apply filter_ext. intros x. destruct (i_label x); reflexivity. }
  rewrite !Z. 
  assert (LZ : length (filter (fun x => noterm x && Nat.eqb (i_label x) 0) (items n)) <= 1).
  { pose proof (nodup_noterm n WN) as ND. rewrite <- filter_filter. induction (filter noterm (items n)) as [|x l IH]; [cbn; lia|].
    cbn [map] in ND. inversion ND; subst. cbn [filter]. destruct (Nat.eqb_spec (i_label x) 0) as [X0|X0]; auto. cbn [length].
    rewrite filter_none; [cbn; lia|]. intros y Hy. apply Nat.eqb_neq. intros Y0. apply H1. rewrite X0, <- Y0. now apply in_map. }
  assert (EX : existsb (fun it => noterm it && Nat.eqb (i_label it) 0) (items n) = Nat.ltb 0 (length (filter (fun x => noterm x && Nat.eqb (i_label x) 0) (items n)))).
  { clear. induction (items n) as [|x l IH]; [reflexivity|]. cbn [existsb filter]. destruct (noterm x && Nat.eqb (i_label x) 0); auto. }
  assert (EH : existsb (fun it => noterm it && hasc it && Nat.eqb (i_label it) 0) (items n) = Nat.ltb 0 (length (filter (fun x => noterm x && hasc x && Nat.eqb (i_label x) 0) (items n)))).
  { clear. induction (items n) as [|x l IH]; [reflexivity|]. cbn [existsb filter]. destruct (noterm x && hasc x && Nat.eqb (i_label x) 0); auto. }
  assert (LE : length (filter (fun x => noterm x && hasc x && Nat.eqb (i_label x) 0) (items n)) <= length (filter (fun x => noterm x && Nat.eqb (i_label x) 0) (items n))).
  { clear. induction (items n) as [|x l IH]; [cbn; lia|]. cbn [filter]. destruct (noterm x), (hasc x), (Nat.eqb (i_label x) 0); cbn [andb length]; lia. }
  rewrite EX, EH.
  set (a := length (filter (fun x => noterm x && Nat.eqb (i_label x) 0) (items n))) in *.
  set (b := length (filter (fun x => noterm x && hasc x && Nat.eqb (i_label x) 0) (items n))) in *.
  unfold sub_chk at 1. match goal with |- bind (if Nat.leb ?a ?b then _ else _) _ = _ => destruct (Nat.leb_spec a b); [|lia] end. cbn [bind].
  destruct (Nat.ltb_spec 0 a), (Nat.ltb_spec 0 b); cbn [andb negb]; unfold sub_chk.
  - f_equal. lia.
  - match goal with |- (if Nat.leb ?a ?b then _ else _) = _ => destruct (Nat.leb_spec a b); [|lia] end. f_equal. lia.
  - lia.
  - f_equal. lia.
Qed.

Lemma leaves_split A it B : items n = A ++ it :: B -> hasc it = false ->
  nth_error (leaves (D1 ++ n :: D2)) (length (filter leafb (flat_map items D1 ++ A))) = Some it.
Proof.
  intros E H. unfold leaves. rewrite flat_map_app. cbn [flat_map]. rewrite E.
  replace (flat_map items D1 ++ (A ++ it :: B) ++ flat_map items D2) with ((flat_map items D1 ++ A) ++ it :: (B ++ flat_map items D2)) by (rewrite <- !app_assoc; reflexivity).
  apply nth_error_filter. unfold leafb. now rewrite H.
Qed.

End OneDense.

(** *** Sparse *)
Lemma indexByte_at (its : list item) A it B k : its = A ++ it :: B -> i_label it = k -> (forall x, In x A -> i_label x <> k) ->
  indexByte (map i_label its) k = Some (length A).
Proof.
  intros -> Hk HA. induction A as [|a A IH]; cbn [app map indexByte].
  - rewrite Hk, Nat.eqb_refl. reflexivity.
  - destruct (Nat.eqb_spec (i_label a) k) as [E|E]; [exfalso; apply (HA a); cbn; auto|]. rewrite IH; auto. intros x Hx. apply HA. now right.
Qed.

Lemma indexByte_no (its : list item) k : (forall x, In x its -> i_label x <> k) -> indexByte (map i_label its) k = None.
Proof.
  induction its as [|a A IH]; intros H; cbn [map indexByte]; auto.
  destruct (Nat.eqb_spec (i_label a) k) as [E|E]; [exfalso; apply (H a); cbn; auto|]. rewrite IH; auto. intros x Hx. apply H. now right.
Qed.

Lemma slice_mid {A} (X Y Z : list A) e : e = length X + length Y -> slice (X ++ Y ++ Z) (length X) e = Ok Y.
Proof.
  intros ->. unfold slice. rewrite !app_length. destruct (Nat.leb_spec (length X) (length X + length Y)); [|lia].
  destruct (Nat.leb_spec (length X + length Y) (length X + (length Y + length Z))); [|lia]. cbn [andb].
  rewrite skipn_app, skipn_all2, Nat.sub_diag by lia. cbn [app skipn]. replace (length X + length Y - length X) with (length Y) by lia.
  rewrite firstn_app, firstn_all, Nat.sub_diag. cbn [firstn]. now rewrite app_nil_r.
Qed.

Lemma cnt_louds ns : Forall nwf ns -> cntl (flat_map loudsb ns) (length (flat_map loudsb ns)) = length ns.
Proof.
  induction 1 as [|n ns Wn' _ IH]; [reflexivity|]. cbn [flat_map length]. rewrite app_length, cntl_app, IH.
  change (S (length ns)) with (1 + length ns). f_equal. unfold loudsb. cbn [length]. unfold cntl. rewrite (cnt_add _ 1). cbn [cnt Nat.add nth].
  f_equal. rewrite (cnt_ext _ (fun _ => false)) by (intros i Hi; apply nth_repeat). clear. generalize (length (repeat false (length (items n) - 1))) as m.
  induction m as [|m IHm]; [reflexivity|]. cbn [cnt]. rewrite IHm. reflexivity.
Qed.

Lemma loudsb1_length n : nwf n -> length (loudsb n) = length (items n).
Proof. intros Wn'. pose proof (items_pos n Wn'). unfold loudsb. cbn [length]. rewrite repeat_length. lia. Qed.

Lemma louds_length ns : Forall nwf ns -> length (flat_map loudsb ns) = length (flat_map items ns).
Proof.
  induction 1 as [|n ns Wn' _ IH]; [reflexivity|]. cbn [flat_map]. rewrite !app_length, IH. f_equal. now apply loudsb1_length.
Qed.

Lemma first_label_term n it r : nwf n -> items n = it :: r -> r <> [] -> Nat.eqb (i_label it) labelTerminator = i_term it.
Proof.
  intros Wm E NE. destruct (i_term it) eqn:T.
  - assert (In it (items n)) by (rewrite E; left; auto). unfold items, items_at in H. apply in_app_or in H as [H|H].
    + apply titem_facts in H as (_ & _ & L & _). rewrite L. reflexivity.
    + apply in_map_iff in H as (p & <- & _). discriminate.
  - apply Nat.eqb_neq. intros L. pose proof (labels_sorted n Wm) as S. pose proof (tail_noterm n it r E) as F. rewrite E in S.
    cbn [filter] in S. unfold noterm at 1 in S. rewrite T in S. cbn [negb map] in S. destruct r as [|x r]; [congruence|].
    inversion F; subst. cbn [filter] in S. unfold noterm at 1 in S. rewrite H1 in S. cbn [negb map] in S.
    inversion S; subst. inversion H4; subst. rewrite L in H5. unfold labelTerminator in H5.
    pose proof (label_byte n x Wm ltac:(rewrite E; right; left; auto)). lia.
Qed.

Section OneSparse.
Variables (ls : loudsSparse) (height h : nat) (DN S1 S2 : list tnode) (n : tnode) (q : bytes).
Notation SN := (S1 ++ n :: S2).
Hypothesis R : ls_rep fp c ls height h DN SN.
Hypothesis W : Forall nwf SN.

Lemma sWn : nwf n.
Proof. apply Forall_app in W as [_ W']. now inversion W'. Qed.
Lemma sW1 : Forall nwf S1.
Proof. now apply Forall_app in W. Qed.
Lemma sW2 : Forall nwf S2.
Proof. apply Forall_app in W as [_ W']. now inversion W'. Qed.

Notation P0 := (length (flat_map items S1)).

Lemma s_louds_eq : flat_map loudsb SN = flat_map loudsb S1 ++ loudsb n ++ flat_map loudsb S2.
Proof. now rewrite flat_map_app. Qed.

Lemma s_louds_head p : p < length (items n) -> nth (P0 + p) (flat_map loudsb SN) false = Nat.eqb p 0.
Proof.
  intros Hp. rewrite s_louds_eq. rewrite <- (louds_length S1 sW1). rewrite app_nth2 by lia.
  replace (length (flat_map loudsb S1) + p - length (flat_map loudsb S1)) with p by lia.
  rewrite app_nth1 by (rewrite loudsb1_length by apply sWn; lia). unfold loudsb. destruct p as [|p]; [reflexivity|]. cbn [nth Nat.eqb]. apply nth_repeat.
Qed.

Lemma s_total : length (flat_map items SN) = P0 + length (items n) + length (flat_map items S2).
Proof. rewrite flat_map_app, app_length. cbn [flat_map]. rewrite app_length. lia. Qed.

Lemma s_firstLabelPos : ls_firstLabelPos ls (length DN + length S1) = Ok P0.
Proof.
  unfold ls_firstLabelPos. rewrite (lsr_dn _ _ _ _ _ _ _ R). unfold sub_chk.
  destruct (Nat.leb_spec (length DN) (length DN + length S1 + 1)); [|lia]. cbn [bind].
  replace (length DN + length S1 + 1 - length DN) with (length S1 + 1) by lia.
  destruct (select_correct _ _ (length S1 + 1) (lsr_louds _ _ _ _ _ _ _ R)) as (p & Ep & Sp).
  - destruct S1; cbn [app flat_map]; reflexivity.
  - rewrite cnt_louds by auto. rewrite app_length. cbn [length]. lia.
  - rewrite Ep. f_equal. apply (is_select_unique _ _ _ _ Sp). pose proof (items_pos n sWn). split; [|split].
    + rewrite louds_length by auto. rewrite s_total. lia.
    + pose proof (s_louds_head 0 ltac:(lia)) as X. now rewrite Nat.add_0_r in X.
    + rewrite s_louds_eq, <- (louds_length S1 sW1), cntl_app_lt by lia. rewrite cnt_louds by apply sW1. lia.
Qed.

Lemma s_nodeSize : 2 <= length (items n) \/ S1 = [] -> ls_nodeSize ls P0 = Ok (length (items n)).
Proof.
  intros TW. unfold ls_nodeSize. pose proof (lsr_louds _ _ _ _ _ _ _ R) as LR. pose proof (items_pos n sWn) as IP.
  destruct (distanceToNextSetBit_correct (sv_bv (ls_louds ls)) (flat_map loudsb SN) P0) as (d & -> & D).
  - apply LR.
  - rewrite louds_length, s_total by auto. lia.
  - f_equal. destruct D as [(p & (N1 & N2 & N3) & ->)|(N & ->)].
    + assert (ES : S2 = [] \/ exists m S3, S2 = m :: S3) by (clear; destruct S2; eauto). destruct ES as [ES|(m & S3 & ES)].
      * exfalso. assert (p < length (flat_map loudsb SN)) by (apply nth_true_lt; exact N2).
        rewrite louds_length, s_total in H by auto. rewrite ES in H. cbn [flat_map length] in H.
        replace p with (P0 + (p - P0)) in N2 by lia. rewrite s_louds_head in N2 by lia. apply Nat.eqb_eq in N2. lia.
      * assert (X : nth (P0 + length (items n)) (flat_map loudsb SN) false = true).
        { rewrite s_louds_eq, ES. rewrite <- (louds_length S1 sW1), <- (loudsb1_length n sWn). rewrite app_assoc. rewrite <- app_length.
          rewrite app_nth2, Nat.sub_diag by lia. reflexivity. }
        destruct (Nat.lt_trichotomy p (P0 + length (items n))) as [L|[->|L]]; [|lia|].
        -- replace p with (P0 + (p - P0)) in N2 by lia. rewrite s_louds_head in N2 by lia. apply Nat.eqb_eq in N2. lia.
        -- rewrite (N3 (P0 + length (items n))) in X by lia. discriminate.
    + rewrite louds_length, s_total by auto.
      assert (ES : S2 = []).
      { assert (ES : S2 = [] \/ exists m S3, S2 = m :: S3) by (clear; destruct S2; eauto). destruct ES as [ES|(m & S3 & ES)]; auto. exfalso. specialize (N (P0 + length (items n)) ltac:(lia)).
        rewrite s_louds_eq, ES in N. rewrite <- (louds_length S1 sW1), <- (loudsb1_length n sWn) in N. rewrite app_assoc, <- app_length in N.
        rewrite app_nth2, Nat.sub_diag in N by lia. discriminate. }
      rewrite ES. cbn [flat_map length]. destruct TW as [T2|T1].
      * destruct (Nat.eqb_spec (P0 + 1) (P0 + length (items n) + 0)); [lia|]. rewrite andb_false_r. lia.
      * rewrite T1. cbn [flat_map length].
        destruct (Nat.eqb_spec (0 + 1) (0 + length (items n) + 0)); [|rewrite andb_false_r; lia]. reflexivity || (cbn; lia).
Qed.

Lemma s_label_eq : ls_label ls = map i_label (flat_map items S1) ++ map i_label (items n) ++ (map i_label (flat_map items S2) ++ [0]).
Proof. rewrite (lsr_label _ _ _ _ _ _ _ R), flat_map_app. cbn [flat_map]. rewrite !map_app, <- !app_assoc. reflexivity. Qed.

Lemma s_getLabel A it B : items n = A ++ it :: B -> getLabel (ls_label ls) (P0 + length A) = Ok (i_label it).
Proof.
  intros E. unfold getLabel. rewrite s_label_eq, E, map_app. cbn [map].
  rewrite <- (map_length i_label (flat_map items S1)), <- (map_length i_label A), <- app_length.
  rewrite <- !app_assoc, app_assoc. cbn [app]. apply idx_mid. reflexivity.
Qed.

Lemma s_hasc A it B : items n = A ++ it :: B -> rv_isSet (ls_hasChild ls) (P0 + length A) = Ok (hasc it).
Proof.
  intros E. rewrite (rv_isSet_spec _ _ _ _ (lsr_hasc _ _ _ _ _ _ _ R)).
  - f_equal. rewrite flat_map_app. cbn [flat_map]. rewrite E, <- !app_assoc. cbn [app]. rewrite app_assoc, map_app. cbn [map].
    rewrite app_nth2 by (rewrite map_length, app_length; lia). rewrite map_length, app_length, Nat.sub_diag. reflexivity.
  - rewrite map_length, s_total, E, app_length. cbn [length]. lia.
Qed.

Lemma s_rank A it B : items n = A ++ it :: B ->
  rankSparse (ls_hasChild ls) (P0 + length A) = Ok (length (filter hasc (flat_map items S1 ++ A ++ [it]))).
Proof.
  intros E. unfold rankSparse. rewrite (rank_at_spec rankSparseBlockSize (ls_hasChild ls) _ _ ltac:(cbv; lia) ltac:(reflexivity) (lsr_hasc _ _ _ _ _ _ _ R)).
  - f_equal. rewrite <- (app_nil_r (map hasc _)). rewrite cntl_map_filter.
    + f_equal. f_equal. rewrite flat_map_app. cbn [flat_map]. rewrite E, <- !app_assoc. cbn [app].
      replace (flat_map items S1 ++ A ++ it :: B ++ flat_map items S2) with ((flat_map items S1 ++ A ++ [it]) ++ (B ++ flat_map items S2)) by (rewrite <- !app_assoc; reflexivity).
      replace (P0 + length A + 1) with (length (flat_map items S1 ++ A ++ [it])) by (rewrite !app_length; cbn [length]; lia).
      rewrite firstn_app, firstn_all, Nat.sub_diag. cbn [firstn]. apply app_nil_r.
    + rewrite s_total, E, app_length. cbn [length]. lia.
  - rewrite map_length, s_total, E, app_length. cbn [length]. lia.
Qed.

Lemma hasc_leaf_count (l : list item) : length (filter hasc l) + length (filter leafb l) = length l.
Proof. induction l as [|x l IH]; [reflexivity|]. cbn [filter]. unfold leafb at 1. destruct (hasc x); cbn [negb length]; lia. Qed.

Lemma s_suffixPos A it B : items n = A ++ it :: B -> hasc it = false ->
  ls_suffixPos ls (P0 + length A) = Ok (length (filter leafb (flat_map items S1 ++ A))).
Proof.
  intros E H. unfold ls_suffixPos. rewrite (s_rank A it B E). cbn [bind].
  rewrite app_assoc, filter_app, app_length. cbn [filter]. rewrite H. cbn [length].
  pose proof (hasc_leaf_count (flat_map items S1 ++ A)) as X. rewrite (app_length (flat_map items S1)) in X.
  unfold sub_chk. destruct (Nat.leb_spec (length (filter hasc (flat_map items S1 ++ A)) + 0) (P0 + length A)); [|lia]. f_equal. lia.
Qed.

Lemma s_childID A it B : items n = A ++ it :: B -> hasc it = true ->
  ls_childNodeID ls (P0 + length A) = Ok (1 + length (filter hasc (flat_map items (DN ++ S1) ++ A))).
Proof.
  intros E H. unfold ls_childNodeID. rewrite (s_rank A it B E). cbn [bind]. f_equal. rewrite (lsr_dc _ _ _ _ _ _ _ R).
  rewrite flat_map_app, <- app_assoc. rewrite (app_assoc (flat_map items S1) A [it]). rewrite (filter_app _ (_ ++ A) [it]), (filter_app _ (flat_map items DN)).
  rewrite !app_length. cbn [filter]. rewrite H. cbn [length]. lia.
Qed.

Lemma s_checkPrefix depth : depth <= length q ->
  checkPrefix (ls_prefix ls) q depth (length S1) = Ok (if is_prefixb (nprefix n) (skipn depth q) then (length (nprefix n), true) else (0, false)).
Proof.
  intros H. rewrite (checkPrefix_spec _ _ q depth (length S1) (lsr_pre _ _ _ _ _ _ _ R)); auto.
  - rewrite map_app. cbn [map]. rewrite app_nth2 by (rewrite map_length; lia). rewrite map_length, Nat.sub_diag. reflexivity.
  - rewrite map_length, app_length. cbn [length]. lia.
Qed.

(** Skipping the terminator leaves the labelled items. *)
Lemma s_skip : exists T, items n = T ++ filter noterm (items n) /\
  skip_terminator (ls_label ls) P0 (length (items n)) = Ok (P0 + length T, length (filter noterm (items n))) /\ (forall x, In x T -> i_term x = true).
Proof.
  pose proof (items_pos n sWn) as IP. unfold skip_terminator.
  destruct (items n) as [|it r] eqn:E; [cbn in IP; lia|].
  pose proof (tail_noterm n it r E) as F. rewrite Forall_forall in F.
  assert (FR : filter noterm r = r) by (apply filter_all; intros x Hx; unfold noterm; rewrite (F x Hx); auto).
  destruct r as [|x r].
  - cbn [length Nat.ltb Nat.leb]. exists []. assert (T : i_term it = false).
    { destruct (i_term it) eqn:T; auto. exfalso. pose proof (items_two n sWn) as I2. rewrite E in I2. cbn [length] in I2.
      destruct (Nat.lt_ge_cases (length (tn_kvs n)) 2) as [L|L]; [|lia]. pose proof (w_ne n sWn). pose proof (w_one n sWn) as O.
      destruct (tn_kvs n) as [|e [|e' t]] eqn:K; cbn [length] in *; try congruence; try lia. specialize (O eq_refl).
      assert (I : In it (items n)) by (rewrite E; left; auto). unfold items, items_at in I. rewrite K in I. apply in_app_or in I as [I|I].
      - apply titem_facts in I as (_ & _ & _ & I & _). congruence.
      - apply in_map_iff in I as (p & <- & _). discriminate. }
    cbn [filter]. unfold noterm. rewrite T. cbn [negb app length]. rewrite Nat.add_0_r. repeat split; auto; try (intros y []).
  - cbn [length Nat.ltb Nat.leb]. pose proof (s_getLabel [] it (x :: r) E) as GL. cbn [length] in GL. rewrite Nat.add_0_r in GL.
    unfold getLabel in GL. rewrite GL. cbn [bind]. rewrite (first_label_term n it (x :: r) sWn E) by discriminate.
    assert (FI : filter noterm (it :: x :: r) = if i_term it then x :: r else it :: x :: r).
    { cbn [filter] in *. rewrite FR. unfold noterm at 1. now destruct (i_term it). }
    rewrite FI. destruct (i_term it) eqn:T.
    + exists [it]. cbn [app length]. repeat split; auto.
      * f_equal. f_equal; lia.
      * intros y [<-|[]]; auto.
    + exists []. cbn [app length]. rewrite Nat.add_0_r. repeat split; auto; try (intros y []).
Qed.

Lemma s_search A it B : items n = A ++ it :: B -> noterm it = true ->
  label_search (ls_label ls) (i_label it) P0 (length (items n)) = Ok (P0 + length A, true).
Proof.
  intros E NT. destruct s_skip as (T & ET & SK & HT). unfold label_search. rewrite SK. cbn [bind].
  set (N := filter noterm (items n)) in *.
  assert (EL : ls_label ls = (map i_label (flat_map items S1 ++ T)) ++ map i_label N ++ (map i_label (flat_map items S2) ++ [0])).
  { rewrite s_label_eq. rewrite ET at 1. rewrite !map_app, <- !app_assoc. reflexivity. }
  replace (P0 + length T) with (length (map i_label (flat_map items S1 ++ T))) by (rewrite map_length, app_length; lia).
  rewrite EL. cbv zeta. rewrite slice_mid.
  2:{ rewrite !app_length, !map_length. cbn [length]. lia. }
  cbn [bind]. assert (NA : exists A', A = T ++ A' /\ N = A' ++ it :: B).
  { rewrite E in ET. clear -ET HT NT. revert T ET HT. induction A as [|a A IH]; intros [|t T] ET HT; cbn [app] in *.
    - exists []. auto.
    - exfalso. inversion ET; subst. specialize (HT t (or_introl eq_refl)). unfold noterm in NT. rewrite HT in NT. discriminate.
    - exists (a :: A). auto.
    - inversion ET; subst. destruct (IH T H1 (fun x Hx => HT x (or_intror Hx))) as (A' & -> & ->). exists A'. auto. }
  destruct NA as (A' & -> & EN). rewrite (indexByte_at N A' it B); auto.
  - rewrite map_length, !app_length. f_equal. f_equal. lia.
  - intros x Hx. pose proof (nodup_noterm n sWn) as ND. fold N in ND. rewrite EN, map_app in ND. cbn [map] in ND. apply NoDup_remove_2 in ND.
    intros L. apply ND. apply in_or_app. left. rewrite <- L. now apply in_map.
Qed.

Lemma s_search_no k : (forall x, In x (items n) -> noterm x = true -> i_label x <> k) ->
  exists p, label_search (ls_label ls) k P0 (length (items n)) = Ok (p, false).
Proof.
  intros HN. destruct s_skip as (T & ET & SK & HT). unfold label_search. rewrite SK. cbn [bind].
  set (N := filter noterm (items n)) in *.
  assert (EL : ls_label ls = (map i_label (flat_map items S1 ++ T)) ++ map i_label N ++ (map i_label (flat_map items S2) ++ [0])).
  { rewrite s_label_eq. rewrite ET at 1. rewrite !map_app, <- !app_assoc. reflexivity. }
  replace (P0 + length T) with (length (map i_label (flat_map items S1 ++ T))) by (rewrite map_length, app_length; lia).
  rewrite EL. cbv zeta. rewrite slice_mid.
  2:{ rewrite !app_length, !map_length. cbn [length]. lia. }
  cbn [bind]. rewrite indexByte_no; [eexists; reflexivity|]. intros x Hx. apply filter_In in Hx as [H1 H2]. now apply HN.
Qed.

Lemma s_end depth : Forall leaf_ok (leaves SN) -> ls_get_end fp ls q P0 depth = Ok (aend_sparse n q depth).
Proof.
  intros LO. unfold ls_get_end, aend_sparse. assert (IE : exists it r, items n = it :: r).
  { pose proof (items_pos n sWn) as IP. clear -IP. destruct (items n); [cbn in IP; lia|eauto]. }
  destruct IE as (it & r & E). rewrite E.
  pose proof (s_getLabel [] it r E) as GL. cbn [length] in GL. rewrite Nat.add_0_r in GL. rewrite GL. cbn [bind].
  pose proof (s_hasc [] it r E) as HC. cbn [length] in HC. rewrite Nat.add_0_r in HC. rewrite HC.
  destruct (Nat.eqb (i_label it) labelTerminator); cbn [andb bind]; [|reflexivity]. destruct (hasc it) eqn:H; cbn [negb]; [reflexivity|].
  pose proof (s_suffixPos [] it r E H) as SP. cbn [length] in SP. rewrite Nat.add_0_r in SP. rewrite SP. cbn [bind].
  apply (check_value_spec _ _ (leaves SN)); [apply R|apply R|auto|]. now apply (leaves_split S1 S2 n [] it r).
Qed.
End OneSparse.
End Get.
