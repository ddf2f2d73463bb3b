(** * The positions at which Prev ends the iteration, in terms of the stored keys. *)
From Coq Require Import Sorted.
From Verif Require Import Base BitsModel BitsFacts VecModel VecProofs VecProofs2 SurfModel SurfTrie SurfSuffix SurfBuild SurfDense SurfEnc SurfBuildTop SurfGet SurfGet2 SurfSpec SurfWalk SurfTop SurfIter SurfIterSpec SurfIterPath SurfIterDense SurfIterSparse SurfIterTop SurfIterMain SurfIterPrev SurfPrevSpec.
Ltac Zify.zify_post_hook ::= Z.div_mod_to_equations.

Notation glen A := (length (concat (map i_grp A))).

Lemma glen_app A B : glen (A ++ B) = glen A + glen B.
Proof. now rewrite map_app, concat_app, app_length. Qed.
Lemma glen_cons x B : glen (x :: B) = length (i_grp x) + glen B.
Proof. cbn [map concat]. now rewrite app_length. Qed.
Lemma grp_pos n x : In x (items n) -> 0 < length (i_grp x).
Proof. intros I. pose proof (item_grp_ne _ _ I). destruct (i_grp x); [congruence|cbn; lia]. Qed.
Lemma glen_kvs n : glen (items n) = length (tn_kvs n).
Proof. pose proof (items_kvs (tn_d n) (tn_kvs n)) as K. fold (items n) in K. now rewrite K. Qed.

(** A position determines the item. *)
Lemma same_item n A x B A' x' B' : items n = A ++ x :: B -> items n = A' ++ x' :: B' -> glen A <= glen A' -> glen A' < glen A + length (i_grp x) -> A = A' /\ x = x' /\ B = B'.
Proof.
  intros E E' L1 L2. assert (P : forall z, In z (items n) -> 0 < length (i_grp z)) by (intros; eapply grp_pos; eauto).
  rewrite E in E'. destruct (split3 _ _ _ _ _ _ E') as [H|[(M & EM)|(M & EM)]]; auto; exfalso.
  - rewrite EM, glen_app, glen_cons in L2. lia.
  - rewrite EM, glen_app, glen_cons in L1. assert (0 < length (i_grp x')) by (apply P; rewrite E, E'; apply in_or_app; right; now left). lia.
Qed.
Lemma item_at n : forall m, m < length (tn_kvs n) -> exists A x B, items n = A ++ x :: B /\ glen A <= m /\ m < glen A + length (i_grp x).
Proof.
  rewrite <- glen_kvs. generalize (items n). induction l as [|x l IH]; intros m L; [cbn in L; lia|]. rewrite glen_cons in L.
  destruct (Nat.lt_ge_cases m (length (i_grp x))) as [H|H]; [exists [], x, l; cbn; repeat split; lia|].
  destruct (IH (m - length (i_grp x)) ltac:(lia)) as (A & y & B & -> & L1 & L2). exists (x :: A), y, B. rewrite glen_cons. repeat split; lia.
Qed.
Lemma item_nth n A x B m d : items n = A ++ x :: B -> glen A <= m -> m < glen A + length (i_grp x) -> In (nth m (tn_kvs n) d) (i_grp x).
Proof.
  intros E L1 L2. rewrite (node_grps n A x B E). rewrite app_nth2 by exact L1. rewrite app_nth1 by lia. apply nth_In. lia.
Qed.

(** A key of a node that is a prefix of all its keys is its terminator. *)
Lemma node_term n e : nwf n -> 2 <= length (tn_kvs n) -> In e (tn_kvs n) -> (forall e', In e' (tn_kvs n) -> is_prefix (fst e) (fst e')) ->
  exists t B, items n = t :: B /\ i_term t = true /\ i_grp t = [e] /\ fst e = ndpath n.
Proof.
  intros W L He PA. destruct (item_of n e He) as (x & Ix & Ex). destruct (i_term x) eqn:T.
  - destruct (item_term n x W Ix T) as (e0 & r & EK & G & FE & _). rewrite G in Ex. destruct Ex as [<-|[]].
    destruct (in_split _ _ Ix) as (A & B & E). destruct A as [|a A]; [exists x, B; auto|]. exfalso. pose proof (tail_noterm n a _ E) as TN.
    rewrite Forall_forall in TN. rewrite (TN x) in T; [discriminate|]. apply in_or_app. right. now left.
  - exfalso. destruct (item_noterm n x e W Ix T Ex) as (_ & LE & LB). pose proof (items_two n W L) as TW.
    destruct (in_split _ _ Ix) as (A & B & E). destruct (items_order n A x B W E T) as [OA OB].
    assert (exists z, In z (A ++ B)) as (z & Hz). { destruct (A ++ B) as [|z r] eqn:EAB; [|exists z; now left]. apply app_eq_nil in EAB as [-> ->]. rewrite E in TW. cbn in TW. lia. }
    assert (Iz : In z (items n)) by (rewrite E; apply in_app_or in Hz; apply in_or_app; cbn [In]; tauto).
    destruct (item_ex n z Iz W) as (g & Hg & Hg'). destruct (PA g Hg') as (u & Eu).
    assert (Tz : i_term z = false).
    { destruct (i_term z) eqn:Tz; auto. destruct (item_term n z W Iz Tz) as (e0 & r & EK & G & FE & _). rewrite G in Hg. destruct Hg as [<-|[]].
      apply (f_equal (@length _)) in Eu. rewrite FE, (ndpath_length n W), app_length in Eu. lia. }
    destruct (item_noterm n z g W Iz Tz Hg) as (_ & _ & LZ). rewrite Eu, app_nth1, LB in LZ by exact LE.
    apply in_app_or in Hz as [Hz|Hz]; [specialize (OA z Hz Tz); lia|destruct (OB z Hz); lia].
Qed.

Section Stops.
Variables (kvs : list kv) (h : nat).
Hypothesis W : nwf (mknode kvs 0).
Notation root := (mknode kvs 0).
Notation pok := (pok kvs).
Notation topn := (topn kvs).
Notation dies := (dies kvs).

Definition root_stop (m : nat) : Prop :=
  exists A y x B, items root = A ++ y :: x :: B /\ m = glen (A ++ [y]) /\ (i_term y = true \/ i_label y = 0).
Definition node_stop (m : nat) : Prop :=
  exists t x, items root = [t; x] /\ i_term t = true /\ i_term x = false /\ i_label x = 0 /\ hasc x = true /\ nterm (mkchild x) = true /\ m = 2.
Definition kstop (m : nat) : Prop := m = 0 \/ (0 < h /\ root_stop m) \/ (1 < h /\ node_stop m).

Lemma term_one n t : nwf n -> In t (items n) -> i_term t = true -> length (i_grp t) = 1.
Proof. intros Wn I T. destruct (item_term n t Wn I T) as (e & r & _ & -> & _). reflexivity. Qed.

Lemma pok_wf f r : pok (f :: r) -> nwf (f_n f).
Proof.
  revert f. induction r as [|g r IH]; intros f (PK & T & EI).
  - destruct T as [_ ->]. exact W.
  - destruct T as (HC & -> & _). apply (child_wf (f_n g)); [now apply IH|eapply frame_in; eauto|exact HC].
Qed.

Lemma zero_frame g : zero_only kvs -> pok [g] -> hasc (f_it g) = true -> exists t, f_A g = [t] /\ items root = [t; f_it g] /\ i_term t = true /\ i_term (f_it g) = false /\ i_label (f_it g) = 0.
Proof.
  intros (t & x & E & Tt & Tx & Lx) (_ & (_ & EN) & EI) HC. rewrite EN, E in EI.
  assert (HT : hasc t = false) by (destruct (hasc t) eqn:HT; auto; rewrite (item_hasc_noterm root t) in Tt; [discriminate| |exact HT]; rewrite E; now left).
  destruct (f_A g) as [|a [|a' A]]; cbn in EI; inversion EI; subst.
  - congruence.
  - exists a. auto.
  - destruct A; discriminate.
Qed.

Lemma bef_cons f r : length (bef (f :: r)) = length (bef r) + glen (f_A f).
Proof. cbn [bef]. now rewrite app_length. Qed.

Lemma dies_stop r : forall f, pok (f :: r) -> length r < h -> dies f r -> kstop (length (bef (f :: r))).
Proof.
  induction r as [|g r IH]; intros f PK L D; pose proof PK as (PK1 & T1 & EI); rewrite bef_cons; cbn [SurfIterPrev.dies] in D.
  - cbn [bef length Nat.add]. destruct T1 as [_ EN]. rewrite EN in EI. destruct D as [[EA|(t & EA & Tt)]|(A & x & EA & Tx & Z)]; rewrite EA in *.
    + left. reflexivity.
    + right; left. split; [cbn in L; lia|]. exists [], t, (f_it f), (f_B f). split; [exact EI|]. split; [reflexivity|now left].
    + right; left. split; [cbn in L; lia|]. exists A, x, (f_it f), (f_B f). split; [rewrite EI, <- app_assoc; reflexivity|]. split; [reflexivity|now right].
  - cbn [length] in L. destruct D as [(-> & Z & NL)|(EA & D)].
    + destruct T1 as (HC & EN & EP). destruct (zero_frame g Z PK1 HC) as (t & EAg & ER & Tt & Tx & Lx). rewrite bef_cons. cbn [bef length Nat.add]. rewrite EAg.
      assert (L1 : glen [t] = 1) by (cbn [map concat]; rewrite app_nil_r; apply (term_one root); auto; rewrite ER; now left).
      destruct NL as [EA|(t1 & EA & T1')]; rewrite EA.
      * cbn [map concat length]. rewrite Nat.add_0_r. right; left. split; [lia|]. exists [], t, (f_it g), []. split; [exact ER|]. split; [reflexivity|now left].
      * assert (It1 : In t1 (items (f_n f))) by (rewrite EI, EA; now left).
        assert (L2 : glen [t1] = 1) by (cbn [map concat]; rewrite app_nil_r; apply (term_one (f_n f)); auto; eapply pok_wf; eauto).
        right; right. split; [cbn [length] in L; lia|]. exists t, (f_it g). repeat (split; auto); [|rewrite L1, L2; reflexivity].
        rewrite <- EN. unfold nterm. apply existsb_exists. eauto.
    + rewrite EA. cbn [map concat length]. rewrite Nat.add_0_r. apply IH; auto. lia.
Qed.

(** The root item a path goes through. *)
Lemma root_span r : forall P n, r <> [] -> pok r -> topn r P n -> exists A x B, items root = A ++ x :: B /\ glen A <= length (bef r) /\ length (bef r) + length (tn_kvs n) <= glen A + length (i_grp x).
Proof.
  induction r as [|f r IH]; intros P n NE PK T; [congruence|]. pose proof PK as (PK1 & T1 & EI). destruct T as (HC & EN & EP). rewrite bef_cons.
  assert (LN : glen (f_A f) + length (tn_kvs n) <= length (tn_kvs (f_n f))). { rewrite <- (glen_kvs (f_n f)), EI, glen_app, glen_cons, EN. change (tn_kvs (mkchild (f_it f))) with (i_grp (f_it f)). lia. }
  destruct r as [|g r].
  - cbn [bef length Nat.add]. destruct T1 as [_ EN1]. rewrite EN1 in EI. exists (f_A f), (f_it f), (f_B f). rewrite EN. split; [exact EI|]. split; [lia|]. change (tn_kvs (mkchild (f_it f))) with (i_grp (f_it f)). lia.
  - destruct (IH _ _ ltac:(discriminate) PK1 T1) as (A & x & B & E & L1 & L2). exists A, x, B. split; [exact E|]. lia.
Qed.
(** Below the second level, the terminators of the root and of its child are behind. *)
Lemma two_before r : node_stop 2 -> forall g g', pok (g :: g' :: r) -> hasc (f_it g) = true -> 2 <= length (bef (g :: g' :: r)).
Proof.
  intros (t & x & ER & Tt & Tx & Lx & HX & NX & _). induction r as [|g'' r IH]; intros g g' PK HC; pose proof PK as (PK1 & T1 & EI); rewrite bef_cons.
  - destruct T1 as (HC' & EN & EP). destruct (zero_frame g' ltac:(exists t, x; auto) PK1 HC') as (t' & EA & ER' & _). rewrite bef_cons. cbn [bef length Nat.add].
    rewrite ER in ER'. inversion ER'; subst. rewrite EA. assert (0 < glen [t']). { rewrite glen_cons. assert (0 < length (i_grp t')) by (apply (grp_pos root); rewrite ER; now left). lia. }
    assert (0 < glen (f_A g)); [|lia]. destruct (f_A g) as [|a A] eqn:EAg.
    + exfalso. unfold nterm in NX. rewrite <- EN, EI in NX. cbn [app existsb] in NX. rewrite (item_hasc_noterm (f_n g) (f_it g)) in NX; auto; [|eapply frame_in; eauto]. cbn [orb] in NX.
      apply existsb_exists in NX as (z & Hz & Tz). cbn [app] in EI. pose proof (tail_noterm _ _ _ EI) as TN. rewrite Forall_forall in TN. rewrite (TN z Hz) in Tz. discriminate.
    + rewrite glen_cons. assert (0 < length (i_grp a)) by (apply (grp_pos (f_n g)); rewrite EI; now left). lia.
  - destruct T1 as (HC' & _). specialize (IH g' g'' PK1 HC'). lia.
Qed.

Lemma root_stop_bound m : root_stop m -> exists A x B, items root = A ++ x :: B /\ m = glen A /\ ((exists t, A = [t] /\ i_term t = true) \/ exists A' y, A = A' ++ [y] /\ i_term y = false /\ i_label y = 0).
Proof.
  intros (A & y & x & B & E & -> & T). exists (A ++ [y]), x, B. split; [rewrite E, <- app_assoc; reflexivity|]. split; [reflexivity|].
  assert (E2 : items root = (A ++ [y]) ++ x :: B) by (rewrite E, <- app_assoc; reflexivity).
  destruct (before_item _ _ _ _ E2) as [EA|[(t & EA & Tt)|(A' & z & EA & Tz)]].
  - destruct A; discriminate.
  - left. exists t. auto.
  - right. apply app_inj_tail in EA as [-> ->]. exists A', z. repeat split; auto. destruct T as [T|T]; [congruence|exact T].
Qed.

Lemma stop_dies r : forall f, pok (f :: r) -> length r < h -> i_term (f_it f) = false -> kstop (length (bef (f :: r))) -> dies f r.
Proof.
  induction r as [|g r IH]; intros f PK L NT K; pose proof PK as (PK1 & T1 & EI).
  - rewrite bef_cons in K. cbn [bef length Nat.add] in K. destruct T1 as [_ EN]. rewrite EN in EI. cbn [SurfIterPrev.dies].
    assert (Ii : In (f_it f) (items root)) by (rewrite EI; apply in_or_app; right; now left). pose proof (grp_pos _ _ Ii) as GP.
    destruct K as [K|[[_ K]|[_ K]]].
    + left. left. destruct (f_A f) as [|a A]; auto. rewrite glen_cons in K. assert (0 < length (i_grp a)) by (apply (grp_pos root); rewrite EI; now left). lia.
    + destruct (root_stop_bound _ K) as (A & x & B & E & LE & C). destruct (same_item root _ _ _ _ _ _ EI E) as (EA & _ & _); [lia|lia|]. rewrite EA.
      destruct C as [(t & -> & Tt)|(A' & y & -> & Ty & Ly)]; [left; right; exists t; rewrite EA; auto|right; exists A', y; rewrite <- EA; auto].
    + exfalso. destruct K as (t & x & E & Tt & Tx & _ & _ & _ & K). rewrite E in EI. destruct (f_A f) as [|a [|a' A]]; cbn in EI; inversion EI; subst.
      * cbn in K. lia.
      * rewrite glen_cons in K. cbn in K. rewrite (term_one root a) in K; auto; [lia|]. rewrite E. now left.
      * destruct A; discriminate.
  - cbn [length] in L. cbn [SurfIterPrev.dies]. pose proof T1 as (HC & EN & EP).
    assert (NTg : i_term (f_it g) = false) by (apply (item_hasc_noterm (f_n g)); auto; eapply frame_in; eauto).
    assert (UP : f_A f = [] -> kstop (length (bef (f :: g :: r))) -> f_A f = [] /\ dies g r).
    { intros EA K'. split; auto. apply IH; auto; [lia|]. rewrite bef_cons, EA in K'. cbn [map concat length] in K'. now rewrite Nat.add_0_r in K'. }
    assert (EMP : length (bef (f :: g :: r)) <= length (bef (g :: r)) -> f_A f = []).
    { rewrite bef_cons. intros LE. destruct (f_A f) as [|a A]; auto. rewrite glen_cons in LE. assert (0 < length (i_grp a)) by (apply (grp_pos (f_n f)); rewrite EI; now left). lia. }
    destruct K as [K|[[H0 K]|[H0 K]]].
    + right. apply UP; [apply EMP; lia|now left].
    + right. apply UP; [|right; left; auto]. apply EMP. destruct (root_stop_bound _ K) as (A & x & B & E & LE & _).
      destruct (root_span (g :: r) _ _ ltac:(discriminate) PK1 T1) as (A0 & x0 & B0 & E0 & L1 & L2).
      assert (LF : glen (f_A f) < length (tn_kvs (f_n f))). { rewrite <- (glen_kvs (f_n f)), EI, glen_app, glen_cons. assert (0 < length (i_grp (f_it f))) by (eapply grp_pos; eapply frame_in; eauto). lia. }
      rewrite LE, <- LE. assert (SB := bef_cons f (g :: r)). destruct (same_item root _ _ _ _ _ _ E0 E) as (EA & _ & _); [lia|lia|]. subst A0. lia.
    + assert (K2 := K). destruct K as (t & x & E & Tt & Tx & Lx & HX & NX & K). destruct r as [|g' r].
      * left. split; auto. split; [exists t, x; auto|]. destruct (zero_frame g ltac:(exists t, x; auto) PK1 HC) as (t' & EA & ER & Tt' & _ & _).
        rewrite !bef_cons in K. cbn [bef length Nat.add] in K. rewrite EA in K. rewrite glen_cons in K. cbn [map concat length] in K. rewrite (term_one root t') in K; auto; [|rewrite ER; now left].
        destruct (f_A f) as [|a A] eqn:EAf; [left; exact EAf|]. rewrite glen_cons in K. assert (0 < length (i_grp a)) by (apply (grp_pos (f_n f)); rewrite EI; now left).
        assert (A = []). { destruct A as [|a' A]; auto. rewrite glen_cons in K. assert (0 < length (i_grp a')) by (apply (grp_pos (f_n f)); rewrite EI; right; now left). lia. }
        subst A. right. exists a. split; [exact EAf|]. rewrite E in ER. inversion ER; subst. unfold nterm in NX. rewrite <- EN, EI in NX. cbn [app existsb] in NX. destruct (i_term a) eqn:Ta; auto.
        exfalso. cbn [orb] in NX. cbn [app] in EI. pose proof (tail_noterm _ _ _ EI) as TN. inversion TN; subst. rewrite NT in NX. cbn [orb] in NX. apply existsb_exists in NX as (z & Hz & Tz). rewrite Forall_forall in H4. rewrite (H4 z Hz) in Tz. discriminate.
      * right. apply UP; [|right; right; split; [exact H0|exact K2]]. apply EMP. rewrite K in K2 |- *. apply (two_before r K2 g g' PK1 HC).
Qed.

(** Strictly inside the sparse part below a path nothing stops. *)
Lemma inside_no_stop r P n m : pok r -> topn r P n -> length r = h -> length (bef r) < m -> m < length (bef r) + length (tn_kvs n) -> ~ kstop m.
Proof.
  intros PK T LH L1 L2 [K|[[H0 K]|[H0 K]]]; [lia| |].
  - destruct r as [|f r]; [cbn in LH; lia|]. destruct (root_stop_bound _ K) as (A & x & B & E & LE & _).
    destruct (root_span (f :: r) _ _ ltac:(discriminate) PK T) as (A0 & x0 & B0 & E0 & M1 & M2).
    destruct (same_item root _ _ _ _ _ _ E0 E) as (EA & _ & _); [lia|lia|]. subst A0. lia.
  - destruct r as [|g [|g' r]]; cbn [length] in LH; try lia. assert (m = 2) by (destruct K as (? & ? & ? & ? & ? & ? & ? & ? & K); exact K). subst m.
    pose proof (two_before r K g g' PK (proj1 T)). lia.
Qed.

(* ---------------------------------------------------------------- *)
(** ** In terms of the keys *)
Notation keys := (map fst kvs).

Lemma key_nth i : i < length kvs -> nth i keys [] = fst (nth i kvs ([], [])).
Proof. intros _. change (@nil nat) with (fst (@nil nat, @nil nat)) at 1. apply map_nth. Qed.
Lemma key_in k : In k keys <-> exists v, In (k, v) (tn_kvs root).
Proof. split; [apply in_map_fst|]. intros (v & I). change k with (fst (k, v)). now apply in_map. Qed.

Lemma inc_nodup i j : i < j -> j < length kvs -> blt (nth i keys []) (nth j keys []).
Proof.
  intros L1 L2. pose proof (w_inc _ W) as I. change (tn_kvs root) with kvs in I. rewrite <- (map_length fst) in L2. revert I L1 L2. generalize keys. clear. intros l. revert i j.
  induction l as [|a l IH]; intros i j I L1 L2; cbn [length] in L2; [lia|]. destruct j; [lia|]. destruct i.
  - cbn [nth]. clear IH. revert a j I L1 L2. induction l as [|b l IH]; intros a j I L1 L2; cbn [length] in L2; [lia|]. cbn [increasing] in I. destruct I as [I1 I2]. destruct j; [exact I1|].
    cbn [nth]. eapply blt_trans; [exact I1|]. apply (IH b j I2); [lia|cbn [length]; lia].
  - cbn [nth]. apply IH; try lia. destruct l; [exact Logic.I|]. cbn [increasing] in I. apply I.
Qed.

Lemma stop_keys m : m < length kvs -> kstop m -> prev_stops h keys m.
Proof.
  intros L [->|[[H0 (A & y & x & B & E & -> & T)]|[H0 (t & x & E & Tt & Tx & Lx & HX & NX & ->)]]]; [now left| |].
  - right. assert (Iy : In y (items root)) by (rewrite E; apply in_or_app; right; now left). pose proof (grp_pos _ _ Iy) as GP.
    rewrite glen_app, glen_cons in *. cbn [map concat length] in *. rewrite Nat.add_0_r in *.
    assert (K1 : In (nth (glen A + length (i_grp y) - 1) kvs ([], [])) (i_grp y)) by (apply (item_nth root A y (x :: B)); auto; lia).
    rewrite key_nth by lia. set (ez := nth (glen A + length (i_grp y) - 1) kvs ([], [])) in *. clearbody ez. destruct (i_term y) eqn:Ty.
    + left. split; [exact H0|]. destruct (item_term root y W Iy Ty) as (e & r & EK & G & FE & _). rewrite G in K1. destruct K1 as [<-|[]]. rewrite FE.
      intros k Hk. apply key_in in Hk as (v & Hv). apply (ndpath_prefix root (k, v) W Hv).
    + right; left. split; [exact H0|]. destruct T as [T|T]; [discriminate|]. exists (ndpath root). split; [|split].
      * intros k Hk. apply key_in in Hk as (v & Hv). apply (ndpath_prefix root (k, v) W Hv).
      * pose proof (label_prefix root y ez W Iy Ty K1) as LP. rewrite T in LP. exact LP.
      * assert (E2 : items root = (A ++ [y]) ++ x :: B) by (rewrite E, <- app_assoc; reflexivity).
        assert (Ix : In x (items root)) by (rewrite E2; apply in_or_app; right; now left). pose proof (grp_pos _ _ Ix).
        rewrite key_nth by lia. assert (K2 : In (nth (glen A + length (i_grp y)) kvs ([], [])) (i_grp x)).
        { apply (item_nth root (A ++ [y]) x B); auto; rewrite glen_app, glen_cons; cbn [map concat length]; lia. }
        destruct (items_order _ _ _ _ W E Ty) as [_ OB]. destruct (OB x ltac:(now left)) as [Tx Lx]. pose proof (label_prefix root x _ W Ix Tx K2) as (u & Eu). intros (w & Ew).
        rewrite Eu, <- !app_assoc in Ew. apply app_inv_head in Ew. cbn in Ew. inversion Ew. lia.
  - right; right; right. split; [exact H0|]. split; [reflexivity|].
    assert (It : In t (items root)) by (rewrite E; now left). assert (Ix : In x (items root)) by (rewrite E; right; now left).
    destruct (item_term root t W It Tt) as (e & r & EK & G & FE & NE & _). change (tn_kvs root) with kvs in EK.
    pose proof (node_grps root [t] x [] E) as EG. change (tn_kvs root) with kvs in EG. cbn [map concat] in EG. rewrite G, !app_nil_r in EG. cbn [app] in EG.
    pose proof (child_wf root x W Ix HX) as Wx. unfold nterm in NX. apply existsb_exists in NX as (t1 & It1 & Tt1).
    destruct (item_term _ t1 Wx It1 Tt1) as (e1 & r1 & EK1 & G1 & FE1 & _). change (tn_kvs (mkchild x)) with (i_grp x) in EK1. rewrite EG, EK1. cbn [map nth tl].
    intros k Hk. destruct Hk as [<-|Hk].
    + assert (Hv : In e1 (i_grp x)) by (rewrite EK1; now left). split; [|split]; [| |apply is_prefix_refl].
      * rewrite FE. apply ndpath_prefix; auto. change (tn_kvs root) with kvs. rewrite EG. now right.
      * pose proof (label_prefix root x e1 W Ix Tx Hv) as LP. rewrite Lx in LP. rewrite FE. exact LP.
    + apply in_map_iff in Hk as (e2 & <- & H2). assert (Hv : In e2 (i_grp x)) by (rewrite EK1; now right). split; [|split].
      * rewrite FE. apply ndpath_prefix; auto. change (tn_kvs root) with kvs. rewrite EG. now right.
      * pose proof (label_prefix root x e2 W Ix Tx Hv) as LP. rewrite Lx in LP. rewrite FE. exact LP.
      * rewrite FE1. apply ndpath_prefix; auto.
Qed.

Lemma keys_stop m : m < length kvs -> prev_stops h keys m -> kstop m.
Proof.
  intros L [->|S]; [now left|]. destruct (Nat.eq_dec m 0) as [->|NZ]; [now left|].
  assert (PRE : forall i, i < length kvs -> (forall k, In k keys -> is_prefix (nth i keys []) k) -> 2 <= length kvs ->
    i = 0 /\ exists t B, items root = t :: B /\ i_term t = true /\ i_grp t = [nth 0 kvs ([], [])] /\ fst (nth 0 kvs ([], [])) = ndpath root).
  { intros i Li PA L2. assert (i = 0).
    { destruct i; auto. exfalso. pose proof (inc_nodup 0 (Datatypes.S i) ltac:(lia) Li) as LT. destruct (PA (nth 0 keys [])) as (u & Eu); [apply nth_In; rewrite map_length; lia|].
      rewrite Eu in LT. revert LT. generalize (nth (Datatypes.S i) keys []). clear. intros l LT. apply (blt_irrefl l). apply (ble_blt_trans _ (l ++ u)); auto. apply is_prefix_ble. now exists u. }
    subst i. split; auto. destruct (node_term root (nth 0 kvs ([], [])) W L2) as (t & B & E & T & G & F); [now apply nth_In| |eauto 6].
    intros e' H'. rewrite key_nth in PA by lia. apply PA. now apply in_map. }
  destruct S as [[H0 PA]|[[H0 (p & PA & P0 & P1)]|(H0 & -> & PA)]].
  - destruct (PRE (m - 1) ltac:(lia) PA ltac:(lia)) as (M & t & B & E & T & G & _). right; left. split; [exact H0|].
    destruct B as [|x B]. { exfalso. pose proof (glen_kvs root) as GK. rewrite E, glen_cons, G in GK. cbn in GK. lia. }
    exists [], t, x, B. split; [exact E|]. split; [|now left]. rewrite glen_app, glen_cons, G. cbn. lia.
  - right; left. split; [exact H0|]. destruct (item_at root (m - 1)) as (A & y & B & E & L1 & L2); [change (tn_kvs root) with kvs; lia|].
    assert (Iy : In y (items root)) by (rewrite E; apply in_or_app; right; now left).
    assert (K1 : In (nth (m - 1) kvs ([], [])) (i_grp y)) by (apply (item_nth root A y B); auto).
    assert (K2 : In (nth m kvs ([], [])) (tn_kvs root)) by (apply nth_In; exact L).
    assert (K1' : In (nth (m - 1) kvs ([], [])) (tn_kvs root)) by (eapply item_grp_incl; eauto).
    rewrite key_nth in P0 by lia. rewrite key_nth in P1 by lia. set (e1 := nth (m - 1) kvs ([], [])) in *. set (e2 := nth m kvs ([], [])) in *.
    assert (LT : blt (fst e1) (fst e2)) by (unfold e1, e2; rewrite <- !key_nth by lia; apply inc_nodup; lia).
    destruct (PA (fst e2)) as (u2 & E2). { apply in_map. exact K2. } destruct P0 as (u1 & E1).
    (* the common prefix ends at the root *)
    pose proof (ndpath_prefix root e1 W K1') as (w1 & F1). pose proof (ndpath_prefix root e2 W K2) as (w2 & F2).
    destruct u2 as [|l u2]. { exfalso. rewrite app_nil_r in E2. rewrite E1, E2 in LT. apply (blt_irrefl p). apply (ble_blt_trans _ ((p ++ [0]) ++ u1)); auto. apply is_prefix_ble. exists ([0] ++ u1). now rewrite app_assoc. }
    assert (NL : l <> 0) by (intros ->; apply P1; exists u2; rewrite E2, <- app_assoc; reflexivity).
    assert (LP : length p = tn_d root).
    { destruct (Nat.lt_trichotomy (length p) (tn_d root)) as [C|[C|C]]; auto; exfalso.
      - assert (N1 : nth (length p) (ndpath root) 0 = 0). { rewrite <- (app_nth1 (ndpath root) w1) by (rewrite (ndpath_length _ W); exact C). rewrite <- F1, E1, <- app_assoc, app_nth2 by lia. now rewrite Nat.sub_diag. }
        assert (N2 : nth (length p) (ndpath root) 0 = l). { rewrite <- (app_nth1 (ndpath root) w2) by (rewrite (ndpath_length _ W); exact C). rewrite <- F2, E2, app_nth2 by lia. now rewrite Nat.sub_diag. }
        congruence.
      - (* all keys go through one item *)
        assert (TW : 2 <= length (items root)) by (apply items_two; auto; change (tn_kvs root) with kvs; lia).
        assert (ALL : forall z, In z (items root) -> i_term z = false /\ i_label z = nth (tn_d root) p 0).
        { intros z Iz. destruct (item_ex root z Iz W) as (g & Hg & Hg'). destruct (PA (fst g)) as (u & Eu); [apply in_map; exact Hg'|].
          assert (Tz : i_term z = false).
          { destruct (i_term z) eqn:Tz; auto. destruct (item_term root z W Iz Tz) as (e0 & r & EK & G & FE & _). rewrite G in Hg. destruct Hg as [<-|[]].
            apply (f_equal (@length _)) in Eu. rewrite FE, (ndpath_length _ W), app_length in Eu. lia. }
          split; auto. destruct (item_noterm root z g W Iz Tz Hg) as (_ & _ & LZ). rewrite <- LZ, Eu, app_nth1 by lia. reflexivity. }
        destruct (items root) as [|a [|b l']] eqn:EI; cbn [length] in TW; try lia.
        destruct (ALL a ltac:(now left)) as [Ta La]. destruct (ALL b ltac:(right; now left)) as [Tb Lb].
        destruct (items_order root [] a (b :: l') W EI Ta) as [_ OB]. destruct (OB b ltac:(now left)). lia. }
    assert (EP : ndpath root = p).
    { rewrite F1, <- app_assoc in E1. apply (f_equal (firstn (length p))) in E1. rewrite firstn_app, LP, <- (ndpath_length _ W), firstn_all, Nat.sub_diag in E1. cbn [firstn] in E1. rewrite app_nil_r in E1.
      rewrite (ndpath_length _ W), <- LP, firstn_app, firstn_all, Nat.sub_diag in E1. cbn [firstn] in E1. now rewrite app_nil_r in E1. }
    assert (Ty : i_term y = false).
    { destruct (i_term y) eqn:Ty; auto. destruct (item_term root y W Iy Ty) as (e0 & r & EK & G & FE & _). rewrite G in K1. destruct K1 as [K1|[]]. rewrite <- K1, FE, EP in E1.
      apply (f_equal (@length _)) in E1. rewrite !app_length in E1. cbn in E1. lia. }
    assert (Ly : i_label y = 0). { destruct (item_noterm root y e1 W Iy Ty K1) as (_ & _ & <-). rewrite E1, <- LP, <- app_assoc, app_nth2 by lia. now rewrite Nat.sub_diag. }
    assert (M : m = glen A + length (i_grp y)).
    { destruct (Nat.lt_ge_cases m (glen A + length (i_grp y))) as [C|C]; [|lia]. exfalso. assert (K3 : In e2 (i_grp y)) by (apply (item_nth root A y B); auto; lia).
      pose proof (label_prefix root y e2 W Iy Ty K3) as PX. rewrite EP, Ly in PX. contradiction. }
    destruct B as [|x B]. { exfalso. pose proof (glen_kvs root) as GK. rewrite E, glen_app, glen_cons in GK. cbn [map concat length] in GK. change (tn_kvs root) with kvs in GK. lia. }
    exists A, y, x, B. split; [exact E|]. split; [|now right]. rewrite glen_app, glen_cons. cbn. lia.
  - right; right. split; [exact H0|].
    assert (PA0 : forall k, In k keys -> is_prefix (nth 0 keys []) k).
    { intros k Hk. destruct keys as [|k0 ks] eqn:EKS; [destruct Hk|]. destruct Hk as [<-|Hk]; [apply is_prefix_refl|]. apply PA. exact Hk. }
    destruct (PRE 0 ltac:(lia) PA0 ltac:(lia)) as (_ & t & B & E & T & G & FE).
    assert (EX : exists e0 e1 e2 ks, kvs = e0 :: e1 :: e2 :: ks) by (clear -L; destruct kvs as [|e0 [|e1 [|e2 ks]]]; cbn [length] in L; try lia; eauto).
    destruct EX as (e0 & e1 & e2 & ks & EX). assert (N0 : nth 0 kvs ([], []) = e0) by (rewrite EX; reflexivity). rewrite N0 in FE, G.
    assert (KT : tl keys = map fst (e1 :: e2 :: ks)) by (rewrite EX; reflexivity). assert (K1 : nth 1 keys [] = fst e1) by (rewrite EX; reflexivity). assert (K0 : nth 0 keys [] = fst e0) by (rewrite EX; reflexivity).
    assert (NTB : forall z, In z B -> i_term z = false) by (pose proof (tail_noterm root t B E) as TN; rewrite Forall_forall in TN; exact TN).
    assert (LZ : forall z, In z B -> i_label z = 0).
    { intros z Hz. assert (Iz : In z (items root)) by (rewrite E; now right). destruct (item_ex root z Iz W) as (g & Hg & Hg'). destruct (item_noterm root z g W Iz (NTB z Hz) Hg) as (_ & LL & <-).
      assert (In (fst g) (tl keys)).
      { change (tn_kvs root) with kvs in Hg'. rewrite KT. assert (Hg2 := Hg'). rewrite EX in Hg2. destruct Hg2 as [<-|Hg2]; [|now apply in_map].
        exfalso. rewrite FE, (ndpath_length _ W) in LL. lia. }
      destruct (PA _ H) as (_ & (u & Eu) & _). rewrite K0, FE in Eu. rewrite Eu, <- app_assoc, app_nth2; rewrite (ndpath_length _ W); [|lia]. now rewrite Nat.sub_diag. }
    destruct B as [|x B]. { exfalso. pose proof (glen_kvs root) as GK. rewrite E, glen_cons, G in GK. change (tn_kvs root) with kvs in GK. rewrite EX in GK. cbn in GK. lia. }
    assert (B = []).
    { destruct B as [|x' B]; auto. exfalso. destruct (items_order root [t] x (x' :: B) W E (NTB x ltac:(now left))) as [_ OB]. destruct (OB x' ltac:(now left)).
      pose proof (LZ x ltac:(now left)). pose proof (LZ x' ltac:(right; now left)). lia. }
    subst B. assert (Ix : In x (items root)) by (rewrite E; right; now left).
    pose proof (node_grps root [t] x [] E) as EG. cbn [map concat] in EG. rewrite G, !app_nil_r in EG. cbn [app] in EG. change (tn_kvs root) with kvs in EG.
    assert (GX : i_grp x = e1 :: e2 :: ks) by (pose proof EX as EX'; rewrite EG in EX'; injection EX'; auto).
    assert (HX : hasc x = true) by (unfold hasc; rewrite GX; reflexivity).
    pose proof (child_wf root x W Ix HX) as Wx.
    destruct (node_term (mkchild x) e1 Wx) as (t1 & B1 & E1 & T1 & _).
    { change (tn_kvs (mkchild x)) with (i_grp x). rewrite GX. cbn [length]. lia. }
    { change (tn_kvs (mkchild x)) with (i_grp x). rewrite GX. now left. }
    { change (tn_kvs (mkchild x)) with (i_grp x). rewrite GX. intros e' H'. destruct (PA (fst e')) as (_ & _ & P); [|rewrite K1 in P; exact P]. rewrite KT. now apply in_map. }
    exists t, x. repeat (split; auto); [apply NTB; now left|apply LZ; now left|]. unfold nterm. rewrite E1. cbn [existsb]. now rewrite T1.
Qed.
End Stops.
