(** * ArtAliasProofs: held values follow the ideal. *)
From Verif Require Import Base BitsModel VecModel ArtNode ArtModel ArtSpec ArtTop ArtRep ArtAlias ArtAliasSpec.

(** ** Numbers as values *)
Lemma untag_tag n : untag (tag n) = n.
Proof.
  unfold untag, tag. assert (X : forall p, bytes_pos (pos_bytes p) = p) by (induction p as [p IH|p IH|]; cbn [pos_bytes bytes_pos]; congruence).
  rewrite X, SuccNat2Pos.id_succ. reflexivity.
Qed.
Lemma pos_bytes_length p : (N.of_nat (length (pos_bytes p)) = N.log2 (Npos p))%N.
Proof.
  assert (X : forall p, (N.succ (N.of_nat (length (pos_bytes p))) = Npos (Pos.size p))%N).
  { induction p0 as [p0 IH|p0 IH|]; cbn [pos_bytes length Pos.size]; [| |reflexivity]; rewrite Nat2N.inj_succ, IH; reflexivity. }
  specialize (X p). destruct p as [p|p|]; cbn [N.log2]; [| |reflexivity]; cbn [Pos.size pos_bytes length] in *; rewrite Nat2N.inj_succ in *; lia.
Qed.
Lemma tag_valid n (ops : list wop) : few ops -> n <= length ops -> valid (tag n).
Proof.
  intros F L. split.
  - unfold tag. generalize (Pos.of_succ_nat n). induction p as [p IH|p IH|]; cbn [pos_bytes]; constructor; auto; lia.
  - unfold tag. rewrite pos_bytes_length. eapply N.le_lt_trans; [|exact F]. apply N.log2_le_mono.
    change (N.pos (Pos.of_succ_nat n)) with (N.of_nat (S n)). lia.
Qed.

(** ** The calls of the tree *)
Fixpoint calls (c : nat) (ops : list wop) : list op :=
  match ops with
  | [] => []
  | WPut k _ :: ops' => OPut k (tag c) :: calls (S c) ops'
  | WDelete k :: ops' => ODelete k :: calls c ops'
  | _ :: ops' => calls c ops'
  end.
Fixpoint hist (h : list wop) : list op :=
  match h with
  | [] => []
  | WPut k _ :: h' => OPut k (tag (puts h')) :: hist h'
  | WDelete k :: h' => ODelete k :: hist h'
  | _ :: h' => hist h'
  end.
Lemma calls_hist ops : forall c h, c = puts h -> rev (calls c ops) ++ hist h = hist (rev ops ++ h).
Proof.
  induction ops as [|[k v|k|k|n j b|n xs] ops IH]; intros c h E; cbn [calls rev app]; auto; rewrite <- ?app_assoc; cbn [app].
  - subst c. apply (IH _ (WPut k v :: h)). reflexivity.
  - apply (IH _ (WGet k :: h)). auto.
  - apply (IH _ (WDelete k :: h)). auto.
  - apply (IH _ (WStore n j b :: h)). auto.
  - apply (IH _ (WAppend n xs :: h)). auto.
Qed.
Lemma latest_owner h k : latest (hist h) k = option_map tag (owner h k).
Proof. induction h as [|[k' v|k'|k'|n j b|n xs] h IH]; cbn [hist latest owner]; auto; destruct (beqb k' k); auto. Qed.
Lemma calls_valid (all : list wop) : few all -> forall ops c, c + length ops <= length all -> Forall valid_wop ops -> Forall valid_op (calls c ops).
Proof.
  intros F. induction ops as [|[k v|k|k|n j b|n xs] ops IH]; intros c L H; cbn [calls]; auto; inversion H as [|? ? H1 H2]; subst; cbn [length] in L; cbn [valid_wop] in H1.
  - constructor; [|apply IH; auto; lia]. split; [apply H1|]. apply (tag_valid c all); auto. lia.
  - apply IH; auto; lia.
  - constructor; [auto|apply IH; auto; lia].
  - apply IH; auto; lia.
  - apply IH; auto; lia.
Qed.

Lemma returns_inj {A B} (f : nat -> res A) (g : A -> B) y : (forall a b, g a = g b -> a = b) -> returns (fun n => x <- f n ;; Ok (g x)) y -> exists x, returns f x /\ y = g x.
Proof.
  intros I (N & H). pose proof (H N (Nat.le_refl N)) as E. destruct (f N) as [x| |] eqn:EX; cbn [bind] in E; try discriminate. exists x.
  assert (EY : g x = y) by congruence. split; [|auto]. exists N. intros n L. specialize (H n L). destruct (f n) as [x'| |]; cbn [bind] in H; try discriminate. f_equal. apply I. congruence.
Qed.
Lemma returns_map {A B} (f : nat -> res A) (g : A -> B) x : returns f x -> returns (fun n => x <- f n ;; Ok (g x)) (g x).
Proof. intros (N & H). exists N. intros n L. rewrite (H n L). reflexivity. Qed.
Lemma put_tree w k v w' : returns (fun f => wPut f w k v) w' -> returns (fun f => Put f (w_tree w) k (tag (length (w_blocks w)))) (w_tree w') /\ w_blocks w' = w_blocks w ++ [v].
Proof.
  intros H. apply (returns_inj (fun f => Put f (w_tree w) k (tag (length (w_blocks w)))) (fun t => mkW t (w_blocks w ++ [v]))) in H; [|intros a b E; congruence]. destruct H as (t & R & ->). auto.
Qed.
Lemma delete_tree w k w' : returns (fun f => wDelete f w k) w' -> returns (fun f => Delete f (w_tree w) k) (w_tree w') /\ w_blocks w' = w_blocks w.
Proof.
  intros H. apply (returns_inj (fun f => Delete f (w_tree w) k) (fun t => mkW t (w_blocks w))) in H; [|intros a b E; congruence]. destruct H as (t & R & ->). auto.
Qed.
Lemma store_is w n j b w' : wStore w n j b = Ok w' -> exists v, nth_error (w_blocks w) n = Some v /\ j < length v /\ w' = mkW (w_tree w) (set_nth (w_blocks w) n (set_nth v j b)).
Proof.
  unfold wStore, idx. destruct (nth_error (w_blocks w) n) as [v|]; cbn [bind]; [|discriminate]. destruct (Nat.ltb_spec j (length v)); [|discriminate]. intros E. exists v. split; auto. split; auto. congruence.
Qed.
Theorem append_none w n xs w' : wAppend w n xs = Ok w' -> w' = w.
Proof.
  unfold wAppend, idx, wCap. destruct (nth_error (w_blocks w) n) as [v|] eqn:E; cbn [bind]; [|discriminate]. destruct (Nat.leb_spec (length v + length xs) (length v)).
  - destruct xs as [|x xs]; [|cbn [length] in *; lia]. rewrite app_nil_r. intros H1. assert (X : set_nth (w_blocks w) n v = w_blocks w).
    { apply list_eq_nth_error. intros i. rewrite nth_error_set_nth. destruct (Nat.eqb_spec n i); subst; auto. destruct (Nat.ltb_spec i (length (w_blocks w))) as [L|L]; auto. apply nth_error_None in L. auto. }
    rewrite X in H1. destruct w. cbn in *. congruence.
  - congruence.
Qed.

Lemma runs_tree w ops w' : wruns w ops w' -> exists outs, runs (w_tree w) (calls (length (w_blocks w)) ops) (w_tree w') outs.
Proof.
  induction 1 as [w|w k v w1 ops w' H _ IH|w k o ops w' _ _ IH|w k w1 ops w' H _ IH|w n j b w1 ops w' H _ IH|w n xs w1 ops w' H _ IH]; cbn [calls].
  - exists []. constructor.
  - apply put_tree in H as (H & E). rewrite E, app_length, Nat.add_1_r in IH. destruct IH as (outs & IH). exists outs. econstructor; eauto.
  - exact IH.
  - apply delete_tree in H as (H & E). rewrite E in IH. destruct IH as (outs & IH). exists outs. econstructor; eauto.
  - apply store_is in H as (v & _ & _ & ->). cbn [w_tree w_blocks] in IH. rewrite set_nth_length in IH. exact IH.
  - apply append_none in H. now subst w1.
Qed.
Lemma runs_blocks w ops w' : wruns w ops w' -> forall h, length (w_blocks w) = puts h -> (forall n, nth_error (w_blocks w) n = content h n) ->
  length (w_blocks w') = puts (rev ops ++ h) /\ forall n, nth_error (w_blocks w') n = content (rev ops ++ h) n.
Proof.
  induction 1 as [w|w k v w1 ops w' H _ IH|w k o ops w' _ _ IH|w k w1 ops w' H _ IH|w n j b w1 ops w' H _ IH|w n xs w1 ops w' H _ IH]; intros h L C; cbn [rev app]; rewrite <- ?app_assoc; cbn [app].
  - auto.
  - apply put_tree in H as (_ & E). apply (IH (WPut k v :: h)); rewrite E.
    + rewrite app_length. cbn [length puts]. lia.
    + intros n. cbn [content]. destruct (Nat.eqb_spec n (puts h)) as [->|NE].
      * rewrite nth_error_app2, L, Nat.sub_diag by lia. reflexivity.
      * rewrite <- C. destruct (Nat.lt_ge_cases n (length (w_blocks w))); [now rewrite nth_error_app1|]. rewrite !(proj2 (nth_error_None _ _)); auto. rewrite app_length. cbn. lia.
  - apply (IH (WGet k :: h)); auto.
  - apply delete_tree in H as (_ & E). apply (IH (WDelete k :: h)); rewrite E; auto.
  - apply store_is in H as (v & EV & _ & ->). apply (IH (WStore n j b :: h)); cbn [w_blocks]; [now rewrite set_nth_length|].
    intros n'. cbn [content]. rewrite nth_error_set_nth, <- C. destruct (Nat.eqb_spec n n') as [<-|]; auto. rewrite EV. destruct (Nat.ltb_spec n (length (w_blocks w))) as [X|X]; [reflexivity|]. apply nth_error_None in X. congruence.
  - apply append_none in H. subst w1. apply (IH (WAppend n xs :: h)); auto.
Qed.

(** ** Executions from the empty tree *)
Lemma few_mono (a b : list wop) : length a <= length b -> few b -> few a.
Proof. unfold few. intros L F. eapply N.le_lt_trans; [|exact F]. apply N.log2_le_mono. lia. Qed.
Section Run.
Variables (ops : list wop) (w : world).
Hypothesis F : few ops.
Hypothesis VO : Forall valid_wop ops.
Hypothesis R : wruns wNew ops w.
Theorem get_owner k : valid k -> returns (fun f => wGet f w k) (owner (rev ops) k).
Proof.
  intros Vk. destruct (runs_tree _ _ _ R) as (outs & T). cbn [wNew w_tree w_blocks length] in T.
  destruct (art_map _ _ _ (calls_valid ops F ops 0 ltac:(lia) VO) T) as (_ & G). specialize (G k Vk).
  pose proof (calls_hist ops 0 [] eq_refl) as CH. cbn [hist] in CH. rewrite !app_nil_r in CH. rewrite CH, latest_owner in G.
  pose proof (returns_map _ (option_map untag) _ G) as X. replace (option_map untag (option_map tag (owner (rev ops) k))) with (owner (rev ops) k) in X; [exact X|].
  destruct (owner (rev ops) k); cbn [option_map]; [now rewrite untag_tag|reflexivity].
Qed.
Theorem blocks_content n : wRead w n = content (rev ops) n.
Proof. destruct (runs_blocks _ _ _ R [] eq_refl) as (_ & X); [intros [|]; reflexivity|]. rewrite app_nil_r in X. apply X. Qed.
End Run.

(** ** The ideal *)
Lemma content_some h n : n < puts h -> exists v, content h n = Some v.
Proof.
  induction h as [|[k v|k|k|n' j b|n' xs] h IH]; cbn [puts content]; intros L; auto; [lia| |].
  - destruct (Nat.eqb_spec n (puts h)); [eauto|apply IH; lia].
  - destruct (Nat.eqb n' n); auto. destruct (IH L) as (v & ->). cbn. eauto.
Qed.
Lemma owner_lt h k n : owner h k = Some n -> n < puts h.
Proof. induction h as [|[k' v|k'|k'|n' j b|n' xs] h IH]; cbn [puts owner]; intros E; auto; [discriminate| |]; destruct (beqb k' k); auto; [assert (n = puts h) by congruence; lia|apply IH in E; lia|discriminate]. Qed.
Lemma owner_inj h k k' n : owner h k = Some n -> owner h k' = Some n -> k = k'.
Proof.
  induction h as [|[k0 v|k0|k0|n' j b|n' xs] h IH]; cbn [owner]; intros E E'; auto; [discriminate| |].
  - destruct (beqb k0 k) eqn:B, (beqb k0 k') eqn:B'; auto.
    + apply beqb_eq in B, B'. congruence.
    + apply owner_lt in E'. assert (n = puts h) by congruence. lia.
    + apply owner_lt in E. assert (n = puts h) by congruence. lia.
  - destruct (beqb k0 k), (beqb k0 k'); try discriminate. auto.
Qed.
Lemma puts_app r h : puts (r ++ h) = puts r + puts h.
Proof. induction r as [|[k v|k|k|n' j b|n' xs] r IH]; cbn [puts app]; auto; lia. Qed.
Lemma puts_length h : puts h <= length h.
Proof. induction h as [|[k v|k|k|n' j b|n' xs] h IH]; cbn [puts length]; lia. Qed.
(** The call that ends a key's block. *)
Definition ends (k : bytes) (o : wop) : Prop := match o with WPut k' _ => k' = k | WDelete k' => k' = k | _ => False end.
Lemma owner_gone r o h k n : owner h k = Some n -> ends k o -> forall k', owner (r ++ o :: h) k' <> Some n.
Proof.
  intros O EN. pose proof (owner_lt _ _ _ O) as L. induction r as [|[k0 v|k0|k0|n' j b|n' xs] r IH]; intros k'; cbn [app owner]; auto.
  - destruct o as [k0 v|k0|k0|n' j b|n' xs]; cbn [ends] in EN; try easy; subst k0; cbn [owner]; (destruct (beqb k k') eqn:B; [|intros X; pose proof (owner_inj _ _ _ _ O X); subst; rewrite beqb_refl in B; discriminate]); [|discriminate].
    intros X. assert (n = puts h) by congruence. lia.
  - destruct (beqb k0 k'); auto. intros X. rewrite puts_app in X. assert (P : puts (o :: h) >= puts h) by (destruct o; cbn [puts]; lia). assert (n = puts r + puts (o :: h)) by congruence. lia.
  - destruct (beqb k0 k'); auto. discriminate.
Qed.

(** ** What callers see *)
Lemma returns_det {A} (f : nat -> res A) x y : returns f x -> returns f y -> x = y.
Proof. intros (N & H) (M & H'). pose proof (H (N + M) ltac:(lia)). pose proof (H' (N + M) ltac:(lia)). congruence. Qed.
Lemma wruns_app a w1 ops1 : wruns a ops1 w1 -> forall ops2 w2, wruns w1 ops2 w2 -> wruns a (ops1 ++ ops2) w2.
Proof. induction 1; intros ops2 w2 R2; cbn [app]; auto; econstructor; eauto. Qed.
Lemma shows_map ops w : few ops -> Forall valid_wop ops -> wruns wNew ops w -> forall k, valid k -> shows w k (ideal (rev ops) k).
Proof.
  intros F VO R k Vk. exists (owner (rev ops) k). split; [apply get_owner; auto|]. unfold ideal. destruct (owner (rev ops) k) as [n|] eqn:O; [|easy].
  rewrite (blocks_content ops w R). split; auto. destruct (content_some _ _ (owner_lt _ _ _ O)) as (v & E). rewrite E. easy.
Qed.
Lemma shows_det w k o o' : shows w k o -> shows w k o' -> o = o'.
Proof. intros (h & R & E & _) (h' & R' & E' & _). rewrite (returns_det _ _ _ R' R) in E'. congruence. Qed.
Theorem held ops : forall w w' n v, wruns w ops w' -> wRead w n = Some v -> (forall j b, ~ In (WStore n j b) ops) -> wRead w' n = Some v.
Proof.
  intros w w' n v R. revert n v. induction R as [w|w k v0 w1 ops w' H _ IH|w k o ops w' _ _ IH|w k w1 ops w' H _ IH|w n0 j b w1 ops w' H _ IH|w n0 xs w1 ops w' H _ IH]; intros n v E NS; auto;
    apply IH; try (intros j' b' X; apply (NS j' b'); now right); unfold wRead in *.
  - apply put_tree in H as (_ & ->). rewrite nth_error_app1; auto. apply nth_error_Some. congruence.
  - exact E.
  - apply delete_tree in H as (_ & ->). exact E.
  - apply store_is in H as (v' & _ & _ & ->). cbn [w_blocks]. rewrite nth_error_set_nth_ne; auto. intros <-. apply (NS j b). now left.
  - apply append_none in H. now subst w1.
Qed.
Theorem store_shows ops w k n v j b : few ops -> Forall valid_wop ops -> wruns wNew ops w -> valid k ->
  returns (fun f => wGet f w k) (Some n) -> wRead w n = Some v -> j < length v ->
  exists w', wStore w n j b = Ok w' /\ shows w' k (Some (set_nth v j b)) /\ forall k' o, valid k' -> k' <> k -> shows w k' o -> shows w' k' o.
Proof.
  intros F VO R Vk G E L. assert (LN : n < length (w_blocks w)) by (apply nth_error_Some; unfold wRead in E; congruence).
  exists (mkW (w_tree w) (set_nth (w_blocks w) n (set_nth v j b))). unfold wRead in E. split; [|split].
  - unfold wStore, idx. rewrite E. cbn [bind]. destruct (Nat.ltb_spec j (length v)); [reflexivity|lia].
  - exists (Some n). split; [exact G|]. unfold wRead. cbn [w_blocks]. rewrite nth_error_set_nth_eq by auto. easy.
  - intros k' o Vk' NE (h & G' & EO & EN). exists h. split; [exact G'|]. split; [|exact EN]. rewrite EO. destruct h as [n'|]; auto. unfold wRead. cbn [w_blocks]. rewrite nth_error_set_nth_ne; auto. intros <-.
    pose proof (returns_det _ _ _ G (get_owner ops w F VO R k Vk)) as O. pose proof (returns_det _ _ _ G' (get_owner ops w F VO R k' Vk')) as O'.
    apply NE. eapply owner_inj; symmetry; eauto.
Qed.
Theorem stale_shows ops w k n o ops2 w2 j b w3 : few (ops ++ o :: ops2) -> Forall valid_wop (ops ++ o :: ops2) -> wruns wNew ops w -> valid k ->
  returns (fun f => wGet f w k) (Some n) -> ends k o -> wruns w (o :: ops2) w2 -> wStore w2 n j b = Ok w3 ->
  forall k' s, valid k' -> shows w2 k' s -> shows w3 k' s.
Proof.
  intros F VO R Vk G EN R2 ST k' s Vk' (h & G' & EO & ES). apply store_is in ST as (v & _ & _ & ->). exists h. split; [exact G'|]. split; [|exact ES]. rewrite EO. destruct h as [n'|]; auto.
  unfold wRead. cbn [w_blocks]. rewrite nth_error_set_nth_ne; auto. intros <-.
  pose proof (returns_det _ _ _ G' (get_owner _ _ F VO (wruns_app _ _ _ R _ _ R2) k' Vk')) as O'. rewrite rev_app_distr in O'. cbn [rev] in O'. rewrite <- app_assoc in O'. cbn [app] in O'.
  symmetry in O'. revert O'. apply (owner_gone _ o (rev ops) k n); auto. symmetry.
  apply (returns_det _ _ _ G). apply get_owner; auto; [|apply Forall_app in VO; apply VO]. apply (few_mono _ (ops ++ o :: ops2)); auto. rewrite app_length. lia.
Qed.
Theorem put_blocks ops w k v : few (WPut k v :: ops) -> Forall valid_wop (WPut k v :: ops) -> wruns wNew ops w ->
  exists w', returns (fun f => wPut f w k v) w' /\ shows w' k (Some v) /\ forall k' o, valid k' -> k' <> k -> shows w k' o -> shows w' k' o.
Proof.
  intros F VO R. inversion VO as [|? ? V1 V2]; subst. destruct V1 as (Vk & Vv).
  assert (F0 : few ops) by (eapply few_mono; [|exact F]; cbn [length]; lia).
  destruct (runs_tree _ _ _ R) as (outs & T). cbn [wNew w_tree w_blocks length] in T.
  assert (RE : reachable (w_tree w)) by (exists (calls 0 ops), outs; split; [apply (calls_valid ops F0); auto|exact T]).
  assert (LB : length (w_blocks w) <= length ops).
  { destruct (runs_blocks _ _ _ R [] eq_refl) as (X & _); [intros [|]; reflexivity|]. rewrite X, app_nil_r. rewrite <- (rev_length ops). apply puts_length. }
  destruct (put_top reachable reach_rep reachable_step _ k (tag (length (w_blocks w))) RE Vk (tag_valid _ _ F0 LB)) as (t & P & _).
  pose proof (returns_map _ (fun t => mkW t (w_blocks w ++ [v])) _ P) as P'. cbn beta in P'. exists (mkW t (w_blocks w ++ [v])). split; [exact P'|].
  assert (R' : wruns wNew (ops ++ [WPut k v]) (mkW t (w_blocks w ++ [v]))) by (eapply wruns_app; [exact R|]; econstructor; [exact P'|constructor]).
  assert (FF : few (ops ++ [WPut k v])) by (eapply few_mono; [|exact F]; rewrite app_length; cbn [length]; lia).
  assert (VV : Forall valid_wop (ops ++ [WPut k v])) by (apply Forall_app; split; [exact V2|constructor; [split; assumption|constructor]]).
  split.
  - pose proof (shows_map _ _ FF VV R' k Vk) as S1. rewrite rev_unit in S1. unfold ideal in S1. cbn [owner] in S1. rewrite beqb_refl in S1. cbn [content] in S1. rewrite Nat.eqb_refl in S1. exact S1.
  - intros k' o Vk' NE S0. pose proof (shows_map _ _ FF VV R' k' Vk') as S1. rewrite rev_unit in S1. unfold ideal in S1. cbn [owner] in S1.
    destruct (beqb k k') eqn:B; [apply beqb_eq in B; congruence|]. rewrite (shows_det _ _ _ _ S0 (shows_map _ _ F0 V2 R k' Vk')). unfold ideal.
    destruct (owner (rev ops) k') as [n|] eqn:O; [|exact S1]. cbn [content] in S1. pose proof (owner_lt _ _ _ O). destruct (Nat.eqb_spec n (puts (rev ops))); [lia|exact S1].
Qed.
