(** * ART, one goroutine: what callers may do with the values that Get returns (C71). *)
From Verif Require Import Base BitsModel VecModel ArtNode ArtModel ArtMono ArtSpec ArtTop ArtRep ArtAlias ArtAliasSpec ArtAliasProofs Props_Art.

(** A runner for the examples. *)
Fixpoint wexec (fuel : nat) (w : world) (ops : list wop) : res world :=
  match ops with
  | [] => Ok w
  | WPut k v :: ops' => w1 <- wPut fuel w k v ;; wexec fuel w1 ops'
  | WGet k :: ops' => _ <- wGet fuel w k ;; wexec fuel w ops'
  | WDelete k :: ops' => w1 <- wDelete fuel w k ;; wexec fuel w1 ops'
  | WStore n j b :: ops' => w1 <- wStore w n j b ;; wexec fuel w1 ops'
  | WAppend n xs :: ops' => w1 <- wAppend w n xs ;; wexec fuel w1 ops'
  end.
Lemma wget_returns fuel w k o : wGet fuel w k = Ok o -> returns (fun f => wGet f w k) o.
Proof.
  unfold wGet. intros H. destruct (Get fuel (w_tree w) k) as [x| |] eqn:E; cbn [bind] in H; try discriminate.
  exists fuel. intros f Hf. rewrite (leR_Ok _ _ _ (Get_mono _ _ _ _ Hf) E). exact H.
Qed.
Lemma wput_returns fuel w k v w' : wPut fuel w k v = Ok w' -> returns (fun f => wPut f w k v) w'.
Proof.
  unfold wPut. intros H. destruct (Put fuel (w_tree w) k (tag (length (w_blocks w)))) as [x| |] eqn:E; cbn [bind] in H; try discriminate.
  exists fuel. intros f Hf. rewrite (leR_Ok _ _ _ (Put_mono _ _ _ _ _ Hf) E). exact H.
Qed.
Lemma wexec_runs fuel ops : forall w w', wexec fuel w ops = Ok w' -> wruns w ops w'.
Proof.
  induction ops as [|[k v|k|k|n j b|n xs] ops IH]; cbn [wexec]; intros w w' H.
  - apply Ok_inj in H. subst. constructor.
  - destruct (wPut fuel w k v) as [w1| |] eqn:E; cbn [bind] in H; try discriminate. apply (wruns_put w k v w1); auto. now apply (wput_returns fuel).
  - destruct (wGet fuel w k) as [o| |] eqn:E; cbn [bind] in H; try discriminate. apply (wruns_get w k o); auto. now apply (wget_returns fuel).
  - destruct (wDelete fuel w k) as [w1| |] eqn:E; cbn [bind] in H; try discriminate. apply (wruns_delete w k w1); auto.
    unfold wDelete in *. destruct (Delete fuel (w_tree w) k) as [x| |] eqn:E2; cbn [bind] in E; try discriminate.
    exists fuel. intros f Hf. rewrite (leR_Ok _ _ _ (Delete_mono _ _ _ _ Hf) E2). exact E.
  - destruct (wStore w n j b) as [w1| |] eqn:E; cbn [bind] in H; try discriminate. apply (wruns_store w n j b w1); auto.
  - destruct (wAppend w n xs) as [w1| |] eqn:E; cbn [bind] in H; try discriminate. apply (wruns_append w n xs w1); auto.
Qed.
Definition valid_wopb (o : wop) : bool :=
  match o with WPut k v => validb k && validb v | WGet k => validb k | WDelete k => validb k | _ => true end.
Lemma valid_wopsb_ok ops : forallb valid_wopb ops = true -> Forall valid_wop ops.
Proof.
  intros H. apply Forall_forall. intros o Ho. rewrite forallb_forall in H. specialize (H o Ho).
  destruct o; cbn [valid_wop valid_wopb] in *; auto using validb_ok. apply andb_true_iff in H as (H1 & H2). split; auto using validb_ok.
Qed.

(** Six keys below a 20-byte path (the node grows), keys ending inside the path, a value that is
    replaced, a key that is removed; the slices of the live, the replaced and the removed value
    are kept and changed. *)
Definition wex : list wop :=
  [WPut (p20 ++ [1; 1]) [101; 102; 103]; WPut (p20 ++ [1; 2]) [111; 112]; WPut (firstn 12 p20) [121; 122]; WPut [] [];
   WPut (p20 ++ [2]) [105]; WPut (p20 ++ [3]) [106]; WPut (p20 ++ [4]) [107]; WPut (p20 ++ [5]) [108]; WPut (p20 ++ [6]) [109];
   WGet (p20 ++ [1; 1]); WStore 0 1 7; WPut (firstn 12 p20) [131; 132]; WStore 2 0 8; WDelete (p20 ++ [1; 2]); WStore 1 1 9;
   WAppend 0 [1; 2; 3]; WAppend 8 []].
Definition wex_keys : list bytes := [p20 ++ [1; 1]; p20 ++ [1; 2]; firstn 12 p20; []; p20 ++ [6]; p20].
Definition wlook (r : res world) (k : bytes) : option (nat * bytes) :=
  match r with
  | Ok w => match wGet 60 w k with Ok (Some n) => option_map (fun v => (n, v)) (wRead w n) | _ => None end
  | _ => None
  end.
Lemma wex_runs : exists w, wexec 60 wNew wex = Ok w /\ wruns wNew wex w.
Proof.
  assert (X : match wexec 60 wNew wex with Ok _ => true | _ => false end = true) by (vm_compute; reflexivity).
  destruct (wexec 60 wNew wex) as [w| |] eqn:E; [|discriminate X|discriminate X]. exists w. split; auto. eapply wexec_runs; eauto.
Qed.
Lemma wex_valid : few wex /\ Forall valid_wop wex /\ Forall valid wex_keys.
Proof.
  split; [vm_compute; reflexivity|]. split; [apply valid_wopsb_ok; vm_compute; reflexivity|].
  repeat (apply Forall_cons; [apply validb_ok; vm_compute; reflexivity|]). apply Forall_nil.
Qed.
Example C71_example : few wex /\ Forall valid_wop wex /\ (exists w, wruns wNew wex w) /\
  map (wlook (wexec 60 wNew wex)) wex_keys = [Some (0, [101; 7; 103]); None; Some (9, [131; 132]); Some (3, []); Some (8, [109]); None] /\
  map (ideal (rev wex)) wex_keys = [Some [101; 7; 103]; None; Some [131; 132]; Some []; Some [109]; None].
Proof.
  destruct wex_valid as (F & V & _). destruct wex_runs as (w & _ & R). split; [exact F|]. split; [exact V|]. split; [now exists w|]. split; vm_compute; reflexivity.
Qed.

(** C71 *)
(** Get shows the bytes of the key's last Put with the caller's assignments to that value
    since; assignments to other values, replaced values and removed values, and appends, do
    not show. *)
Theorem C71_map : forall ops w, few ops -> Forall valid_wop ops -> wruns wNew ops w -> forall k, valid k -> shows w k (ideal (rev ops) k).
Proof. exact shows_map. Qed.
Print Assumptions C71_map.
(** What is shown is one thing. *)
Theorem C71_shows_one : forall w k o o', shows w k o -> shows w k o' -> o = o'.
Proof. exact shows_det. Qed.
Print Assumptions C71_shows_one.

(** Assigning to a byte of what Get returned never fails, changes that byte for the key, and
    nothing for any other key. *)
Theorem C71_store : forall ops w k n v j b, few ops -> Forall valid_wop ops -> wruns wNew ops w -> valid k ->
  returns (fun f => wGet f w k) (Some n) -> wRead w n = Some v -> j < length v ->
  exists w', wStore w n j b = Ok w' /\ shows w' k (Some (set_nth v j b)) /\ forall k' o, valid k' -> k' <> k -> shows w k' o -> shows w' k' o.
Proof. exact store_shows. Qed.
Print Assumptions C71_store.
Example C71_store_example : exists w, wruns wNew wex w /\ returns (fun f => wGet f w (p20 ++ [1; 1])) (Some 0) /\ wRead w 0 = Some [101; 7; 103] /\ 2 < 3.
Proof.
  destruct wex_runs as (w & E & R). exists w. split; [exact R|]. split; [|split; [|lia]].
  - apply (wget_returns 60). assert (X : (r <- wexec 60 wNew wex ;; wGet 60 r (p20 ++ [1; 1])) = Ok (Some 0)) by (vm_compute; reflexivity). rewrite E in X. exact X.
  - assert (X : match wexec 60 wNew wex with Ok r => wRead r 0 | _ => None end = Some [101; 7; 103]) by (vm_compute; reflexivity). rewrite E in X. exact X.
Qed.

(** Once the key was put again or removed, assigning to the kept slice shows nowhere, whatever
    calls follow. *)
Theorem C71_stale : forall ops w k n o ops2 w2 j b w3, few (ops ++ o :: ops2) -> Forall valid_wop (ops ++ o :: ops2) -> wruns wNew ops w -> valid k ->
  returns (fun f => wGet f w k) (Some n) -> ends k o -> wruns w (o :: ops2) w2 -> wStore w2 n j b = Ok w3 ->
  forall k' s, valid k' -> shows w2 k' s -> shows w3 k' s.
Proof. exact stale_shows. Qed.
Print Assumptions C71_stale.
Example C71_stale_example : exists w w2 w3, wruns wNew wex w /\ returns (fun f => wGet f w (p20 ++ [1; 1])) (Some 0) /\
  wruns w [WDelete (p20 ++ [1; 1]); WPut (p20 ++ [1; 1]) [55; 56; 57]] w2 /\ wStore w2 0 0 5 = Ok w3 /\
  few (wex ++ [WDelete (p20 ++ [1; 1]); WPut (p20 ++ [1; 1]) [55; 56; 57]]) /\
  wlook (Ok w3) (p20 ++ [1; 1]) = Some (10, [55; 56; 57]) /\ wRead w3 0 = Some [5; 7; 103].
Proof.
  destruct wex_runs as (w & E & R).
  assert (X : match (r <- wexec 60 wNew wex ;; wexec 60 r [WDelete (p20 ++ [1; 1]); WPut (p20 ++ [1; 1]) [55; 56; 57]]) with
              | Ok r2 => match wStore r2 0 0 5 with Ok r3 => (wlook (Ok r3) (p20 ++ [1; 1]), wRead r3 0) | _ => (None, None) end | _ => (None, None) end = (Some (10, [55; 56; 57]), Some [5; 7; 103])) by (vm_compute; reflexivity).
  assert (G : (r <- wexec 60 wNew wex ;; wGet 60 r (p20 ++ [1; 1])) = Ok (Some 0)) by (vm_compute; reflexivity).
  rewrite E in X, G. cbn [bind] in X, G.
  destruct (wexec 60 w [WDelete (p20 ++ [1; 1]); WPut (p20 ++ [1; 1]) [55; 56; 57]]) as [w2| |] eqn:E2; [|discriminate X|discriminate X].
  destruct (wStore w2 0 0 5) as [w3| |] eqn:E3; [|discriminate X|discriminate X].
  exists w, w2, w3. split; [exact R|]. split; [now apply (wget_returns 60)|]. split; [eapply wexec_runs; eauto|]. split; [exact E3|]. split; [vm_compute; reflexivity|].
  split; [now apply (f_equal fst) in X|now apply (f_equal snd) in X].
Qed.

(** A kept slice keeps its bytes through any calls, but for assignments to itself. *)
Theorem C71_held : forall ops w w' n v, wruns w ops w' -> wRead w n = Some v -> (forall j b, ~ In (WStore n j b) ops) -> wRead w' n = Some v.
Proof. exact held. Qed.
Print Assumptions C71_held.
Example C71_held_example : exists w w', wruns w [WDelete (p20 ++ [1; 1]); WPut (p20 ++ [1; 1]) [55; 56; 57]; WStore 2 0 1] w' /\
  wRead w 0 = Some [101; 7; 103] /\ wlook (Ok w) (p20 ++ [1; 1]) = Some (0, [101; 7; 103]).
Proof.
  destruct wex_runs as (w & E & R).
  assert (X : match wexec 60 wNew wex with
              | Ok r => match wexec 60 r [WDelete (p20 ++ [1; 1]); WPut (p20 ++ [1; 1]) [55; 56; 57]; WStore 2 0 1] with Ok r2 => (wRead r 0, wlook (Ok r) (p20 ++ [1; 1])) | _ => (None, None) end
              | _ => (None, None) end = (Some [101; 7; 103], Some (0, [101; 7; 103]))) by (vm_compute; reflexivity).
  rewrite E in X. destruct (wexec 60 w [WDelete (p20 ++ [1; 1]); WPut (p20 ++ [1; 1]) [55; 56; 57]; WStore 2 0 1]) as [w2| |] eqn:E2; [|discriminate X|discriminate X].
  exists w, w2. split; [eapply wexec_runs; eauto|]. split; [now apply (f_equal fst) in X|now apply (f_equal snd) in X].
Qed.

(** Appending to a returned value changes nothing: it has no spare capacity. *)
Theorem C71_append : forall w n xs w', wAppend w n xs = Ok w' -> w' = w.
Proof. exact append_none. Qed.
Print Assumptions C71_append.
Example C71_append_example : exists w w', wexec 60 wNew wex = Ok w /\ wAppend w 0 [1; 2; 3] = Ok w' /\ wRead w' 0 = Some [101; 7; 103].
Proof.
  destruct wex_runs as (w & E & _).
  assert (X : match wexec 60 wNew wex with Ok r => match wAppend r 0 [1; 2; 3] with Ok r2 => wRead r2 0 | _ => None end | _ => None end = Some [101; 7; 103]) by (vm_compute; reflexivity).
  rewrite E in X. destruct (wAppend w 0 [1; 2; 3]) as [w'| |] eqn:E2; [|discriminate X|discriminate X]. exists w, w'. split; [exact E|]. split; [exact E2|exact X].
Qed.

(** Put takes a copy: afterwards the key shows the bytes given and no other key shows a change. *)
Theorem C71_put : forall ops w k v, few (WPut k v :: ops) -> Forall valid_wop (WPut k v :: ops) -> wruns wNew ops w ->
  exists w', returns (fun f => wPut f w k v) w' /\ shows w' k (Some v) /\ forall k' o, valid k' -> k' <> k -> shows w k' o -> shows w' k' o.
Proof. exact put_blocks. Qed.
Print Assumptions C71_put.
Example C71_put_example : few (WPut (p20 ++ [1; 3]) [1; 2] :: wex) /\ Forall valid_wop (WPut (p20 ++ [1; 3]) [1; 2] :: wex).
Proof. split; [vm_compute; reflexivity|]. apply valid_wopsb_ok. vm_compute. reflexivity. Qed.
