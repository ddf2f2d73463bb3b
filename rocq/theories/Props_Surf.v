(** * SuRF, Build and Get: properties C17-C23. *)
From Verif Require Import Base BitsModel VecModel SurfModel SurfTrie SurfEnc SurfBuildTop SurfSpec SurfTop SurfSuffix2.

(** Boolean check of [valid_input], for the examples. *)
Fixpoint incb (keys : list bytes) : bool :=
  match keys with
  | a :: ((b :: _) as r) => match bcompare a b with Lt => true | _ => false end && incb r
  | _ => true
  end.
Lemma incb_ok keys : incb keys = true -> increasing keys.
Proof.
  induction keys as [|a [|b r] IH]; cbn [incb increasing]; auto. intros H. apply andb_true_iff in H as [H1 H2].
  split; [|now apply IH]. unfold blt. now destruct (bcompare a b).
Qed.
Definition validb_input (vs h r : nat) (keys vals : list bytes) : bool :=
  negb (Nat.eqb (length keys) 0) && incb keys && negb (match keys with [[]] => true | _ => false end) &&
  forallb wf_bytes keys && Nat.leb (length keys) (length vals) && forallb (fun v => Nat.leb vs (length v)) (firstn (length keys) vals) &&
  Nat.leb (h + r) 64 && N.ltb (N.of_nat (length (concat keys))) 4294967296.
Lemma validb_input_ok vs h r keys vals : validb_input vs h r keys vals = true -> valid_input vs h r keys vals.
Proof.
  intros H. unfold validb_input in H. repeat (apply andb_true_iff in H as [H ?]).
  constructor.
  - intros ->. discriminate.
  - now apply incb_ok.
  - intros ->. discriminate.
  - now apply Forall_forall, forallb_forall.
  - now apply Nat.leb_le.
  - apply Forall_forall. intros v Hv. rewrite forallb_forall in H2. apply Nat.leb_le. auto.
  - now apply Nat.leb_le.
  - now apply N.ltb_lt.
Qed.

(** A fingerprint function, for the examples: any will do. *)
Definition ex_fp (k : bytes) : N := fold_right (fun b a => (a * 31 + N.of_nat b)%N) 7%N k.

(** Keys with shared paths, keys that are prefixes of others (the empty key included),
    label 255, mixed suffixes. *)
Definition ex_keys : list bytes :=
  [[]; [97]; [97; 98; 99]; [97; 98; 99; 1; 1; 7]; [97; 98; 99; 1; 2]; [97; 255]; [98; 5; 5; 1]; [98; 5; 5; 2; 9; 9]; [255]; [255; 255; 3]].
Definition ex_vals : list bytes := map (fun i => [i; 100 + i; 200]) (seq 0 10).
Notation ex_filter hint := (surf_build ex_fp 8 (newBuilder 2 5 9) ex_keys ex_vals hint).

Lemma ex_valid : valid_input 2 5 9 ex_keys ex_vals.
Proof. apply validb_input_ok. vm_compute. reflexivity. Qed.
Lemma ex_built hint s : (exists b, ex_filter hint = Ok (s, b)) -> built ex_fp 2 5 9 ex_keys ex_vals hint s.
Proof.
  intros (b & E). exists 8, b. split; [|exact E]. apply Forall_forall. intros k Hk.
  assert (X : forallb (fun k => Nat.ltb (length k) 8) ex_keys = true) by reflexivity. rewrite forallb_forall in X. apply Nat.ltb_lt. auto.
Qed.
(** One layout with a dense part, one without. *)
Lemma ex_layouts :
  match ex_filter 1000, ex_filter 0 with
  | Ok (s1, _), Ok (s2, _) => Nat.ltb 0 (ld_height (s_ld s1)) && Nat.eqb (ld_height (s_ld s2)) 0
  | _, _ => false
  end = true.
Proof. vm_compute. reflexivity. Qed.

(** C17 *)
Theorem C17_no_false_negatives : forall fp vs h r keys vals hint s i k v, valid_input vs h r keys vals ->
  built fp vs h r keys vals hint s -> nth_error keys i = Some k -> nth_error vals i = Some v ->
  surf_get fp s k = Ok (Some (firstn vs v)).
Proof. exact get_stored. Qed.
Print Assumptions C17_no_false_negatives.
Example C17_example : valid_input 2 5 9 ex_keys ex_vals /\ exists s, built ex_fp 2 5 9 ex_keys ex_vals 1000 s /\
  map (surf_get ex_fp s) ex_keys = map (fun i => Ok (Some [i; 100 + i])) (seq 0 10).
Proof.
  split; [exact ex_valid|].
  assert (X : match ex_filter 1000 with Ok (s, _) => map (surf_get ex_fp s) ex_keys = map (fun i => Ok (Some [i; 100 + i])) (seq 0 10) | _ => False end) by (vm_compute; reflexivity).
  destruct (ex_filter 1000) as [[s b]| |] eqn:E; [|destruct X|destruct X]. exists s. split; auto. apply ex_built. eauto.
Qed.

(** C18 *)
Theorem C18_get_never_panics : forall fp vs h r keys vals hint s q, valid_input vs h r keys vals ->
  built fp vs h r keys vals hint s -> wf_bytes q = true -> exists a, surf_get fp s q = Ok a.
Proof. exact get_total. Qed.
Print Assumptions C18_get_never_panics.
Example C18_example : exists s, built ex_fp 2 5 9 ex_keys ex_vals 0 s /\
  map (surf_get ex_fp s) [[97; 98; 99; 1]; [97; 98]; [254]; [255; 255; 255; 255; 255; 255; 255; 255; 255; 255]; [98; 5; 5; 2]]
  = [Ok None; Ok None; Ok None; Ok None; Ok None].
Proof.
  assert (X : match ex_filter 0 with Ok (s, _) => map (surf_get ex_fp s) [[97; 98; 99; 1]; [97; 98]; [254]; [255; 255; 255; 255; 255; 255; 255; 255; 255; 255]; [98; 5; 5; 2]]
    = [Ok None; Ok None; Ok None; Ok None; Ok None] | _ => False end) by (vm_compute; reflexivity).
  destruct (ex_filter 0) as [[s b]| |] eqn:E; [|destruct X|destruct X]. exists s. split; auto. apply ex_built. eauto.
Qed.

(** C19 *)
Theorem C19_hits_are_backed : forall fp vs h r keys vals hint s q v, valid_input vs h r keys vals ->
  built fp vs h r keys vals hint s -> wf_bytes q = true -> surf_get fp s q = Ok (Some v) ->
  exists i k w, nth_error keys i = Some k /\ nth_error vals i = Some w /\ v = firstn vs w /\ backed keys k q.
Proof. exact get_backed. Qed.
Print Assumptions C19_hits_are_backed.

(** A false positive: the query is absent, and agrees with a stored key on that key's
    distinguishing prefix. No suffixes, so nothing else is checked. *)
Definition fp_keys : list bytes := [[1; 2; 3; 4]; [1; 5]; [9; 9]].
Example C19_example : valid_input 1 0 0 fp_keys [[1]; [2]; [3]] /\ exists s, built ex_fp 1 0 0 fp_keys [[1]; [2]; [3]] 0 s /\
  surf_get ex_fp s [1; 2; 7; 7] = Ok (Some [1]) /\ ~ In [1; 2; 7; 7] fp_keys /\ dprefix fp_keys [1; 2; 3; 4] = [1; 2] /\ dprefix fp_keys [9; 9] = [9].
Proof.
  split; [apply validb_input_ok; vm_compute; reflexivity|].
  assert (X : match surf_build ex_fp 8 (newBuilder 1 0 0) fp_keys [[1]; [2]; [3]] 0 with Ok (s, _) => surf_get ex_fp s [1; 2; 7; 7] = Ok (Some [1]) | _ => False end) by (vm_compute; reflexivity).
  destruct (surf_build ex_fp 8 (newBuilder 1 0 0) fp_keys [[1]; [2]; [3]] 0) as [[s b]| |] eqn:E; [|destruct X|destruct X].
  exists s. split; [exists 8, b; split; [repeat constructor|exact E]|]. split; auto. split; [|split; reflexivity].
  cbn. intros [H|[H|[H|[]]]]; discriminate.
Qed.

(** C20: true for every query that is not a proper prefix of a stored key ... *)
Theorem C20_split_invisible_partial : forall fp vs h r keys vals hint1 hint2 s1 s2 q, valid_input vs h r keys vals ->
  built fp vs h r keys vals hint1 s1 -> built fp vs h r keys vals hint2 s2 -> wf_bytes q = true ->
  ~ proper_prefix_of_some keys q -> surf_get fp s1 q = surf_get fp s2 q.
Proof. exact get_split. Qed.
Print Assumptions C20_split_invisible_partial.
(** ... and false without that restriction: the sparse lookup does not compare the path
    of a node at which the query ends, the dense lookup does. *)
Definition split_keys : list bytes := [[97; 98]; [97; 98; 99; 1]; [97; 98; 99; 2]].
Theorem C20_split_invisible_refuted : exists fp vs h r keys vals hint1 hint2 s1 s2 q, valid_input vs h r keys vals /\
  built fp vs h r keys vals hint1 s1 /\ built fp vs h r keys vals hint2 s2 /\ wf_bytes q = true /\
  surf_get fp s1 q <> surf_get fp s2 q.
Proof.
  assert (X : match surf_build ex_fp 8 (newBuilder 1 0 0) split_keys [[1]; [2]; [3]] 0, surf_build ex_fp 8 (newBuilder 1 0 0) split_keys [[1]; [2]; [3]] 1000 with
    | Ok (s1, _), Ok (s2, _) => surf_get ex_fp s1 [] = Ok (Some [1]) /\ surf_get ex_fp s2 [] = Ok None | _, _ => False end) by (vm_compute; auto).
  destruct (surf_build ex_fp 8 (newBuilder 1 0 0) split_keys [[1]; [2]; [3]] 0) as [[s1 b1]| |] eqn:E1; [|destruct X|destruct X].
  destruct (surf_build ex_fp 8 (newBuilder 1 0 0) split_keys [[1]; [2]; [3]] 1000) as [[s2 b2]| |] eqn:E2; [|destruct X|destruct X].
  destruct X as [X1 X2].
  exists ex_fp, 1, 0, 0, split_keys, [[1]; [2]; [3]], 0%Z, 1000%Z, s1, s2, [].
  split; [apply validb_input_ok; vm_compute; reflexivity|].
  assert (F : Forall (fun k => length k < 8) split_keys) by (repeat constructor).
  split; [exists 8, b1; auto|]. split; [exists 8, b2; auto|]. split; [reflexivity|]. rewrite X1, X2. discriminate.
Qed.
Print Assumptions C20_split_invisible_refuted.
Example C20_example : exists s1 s2, built ex_fp 2 5 9 ex_keys ex_vals 1000 s1 /\ built ex_fp 2 5 9 ex_keys ex_vals 0 s2 /\
  ld_height (s_ld s1) <> ld_height (s_ld s2) /\ ~ proper_prefix_of_some ex_keys [97; 98; 99; 1; 1; 8] /\
  surf_get ex_fp s1 [97; 98; 99; 1; 1; 7] = Ok (Some [3; 103]).
Proof.
  assert (X : match ex_filter 1000, ex_filter 0 with Ok (s1, _), Ok (s2, _) =>
     Nat.eqb (ld_height (s_ld s1)) (ld_height (s_ld s2)) = false /\ surf_get ex_fp s1 [97; 98; 99; 1; 1; 7] = Ok (Some [3; 103]) | _, _ => False end) by (vm_compute; auto).
  destruct (ex_filter 1000) as [[s1 b1]| |] eqn:E1; [|destruct X|destruct X]. destruct (ex_filter 0) as [[s2 b2]| |] eqn:E2; [|destruct X|destruct X].
  destruct X as [X1 X2]. exists s1, s2. split; [apply ex_built; eauto|]. split; [apply ex_built; eauto|].
  split; [intros Y; rewrite Y, Nat.eqb_refl in X1; discriminate|]. split; auto.
  intros (k & Hk & [t Ht] & NE). cbn in Hk. repeat (destruct Hk as [<-|Hk]; [discriminate|]). destruct Hk.
Qed.

(** C21 *)
Theorem C21_suffixes_read_back : forall fp c, cfg_ok c -> forall groups, c_type c <> NoneSuffix ->
  Forall (fun p => wf_bytes (fst p) = true) (concat groups) ->
  exists lvs v, Forall2 (fun g lv => insert_suffixes fp c g emptyLevel = Ok lv) groups lvs /\
    suffixVector_init (c_type c) (c_hashLen c) (c_realLen c) (map lv_suffixes lvs) (map (fun lv => lv_suffixCount lv * c_suffixLen c) lvs) = Ok v /\
    forall i k d, nth_error (concat groups) i = Some (k, d) ->
      suffix_read v i = constructSuffix fp k (d + 1) (c_type c) (c_realLen c) (c_hashLen c) /\
      checkEquality fp v i k (d + 1) = Ok true.
Proof. exact suffixes_roundtrip. Qed.
Print Assumptions C21_suffixes_read_back.
(** 27-bit suffixes over three levels, one of them empty: the third one and the fifth one
    straddle a word. *)
Definition ex_groups : list (list (bytes * nat)) :=
  [[([1; 2; 3; 4; 5; 6; 7; 8; 9], 0); ([2; 200; 201; 202; 203; 204], 0); ([255; 255; 255; 255; 255; 255], 1)]; []; [([7; 7], 1); ([8; 8; 129; 130; 131; 132], 1)]].
Example C21_example : cfg_ok (mkcfg 0 0 27) /\ c_type (mkcfg 0 0 27) <> NoneSuffix /\
  map (fun p => constructSuffix ex_fp (fst p) (snd p + 1) RealSuffix 27 0) (concat ex_groups) =
  [Ok 1052696%N; Ok 105268814%N; Ok 134217727%N; Ok 0%N; Ok 67650572%N] /\ length (concat ex_groups) = 5.
Proof. split; [split; [reflexivity|vm_compute; lia]|]. split; [discriminate|]. vm_compute. auto. Qed.

(** C22: every valid list, that is every non-empty strictly increasing list other than
    the single empty key ... *)
Theorem C22_build_returns_partial : forall fp vs h r keys vals hint, valid_input vs h r keys vals ->
  exists s, built fp vs h r keys vals hint s.
Proof. exact build_total. Qed.
Print Assumptions C22_build_returns_partial.
(** ... for which Build panics. *)
Theorem C22_build_returns_refuted : exists keys vals, keys <> [] /\ increasing keys /\ length keys = length vals /\
  forall fp fuel hint, surf_build fp (S fuel) (newBuilder 1 0 0) keys vals hint = Panic.
Proof.
  exists [[]], [[1]]. split; [discriminate|]. split; [exact I|]. split; [reflexivity|]. intros fp fuel hint.
  reflexivity.
Qed.
Print Assumptions C22_build_returns_refuted.
Example C22_example : valid_input 2 5 9 ex_keys ex_vals.
Proof. exact ex_valid. Qed.

(** C23 is false: levels, counters and the trie of the first Build stay in the builder.
    A second Build with the same builder loses both of its keys. *)
Theorem C23_builder_reusable_refuted : exists fp vs h r keys1 vals1 keys2 vals2 hint s1 s2 s3 b1 b2 b3 k,
  valid_input vs h r keys1 vals1 /\ valid_input vs h r keys2 vals2 /\ In k keys2 /\
  surf_build fp 8 (newBuilder vs h r) keys1 vals1 hint = Ok (s1, b1) /\
  surf_build fp 8 b1 keys2 vals2 hint = Ok (s2, b2) /\
  surf_build fp 8 (newBuilder vs h r) keys2 vals2 hint = Ok (s3, b3) /\
  surf_get fp s3 k <> surf_get fp s2 k /\ surf_get fp s2 k = Ok None.
Proof.
  assert (X : match surf_build ex_fp 8 (newBuilder 1 0 0) [[1]; [2]] [[1]; [2]] 0, surf_build ex_fp 8 (newBuilder 1 0 0) [[3]; [4; 5]] [[3]; [4]] 0 with
    | Ok (s1, b1), Ok (s3, b3) => match surf_build ex_fp 8 b1 [[3]; [4; 5]] [[3]; [4]] 0 with Ok (s2, b2) => surf_get ex_fp s3 [3] = Ok (Some [3]) /\ surf_get ex_fp s2 [3] = Ok None | _ => False end
    | _, _ => False end) by (vm_compute; auto).
  destruct (surf_build ex_fp 8 (newBuilder 1 0 0) [[1]; [2]] [[1]; [2]] 0) as [[s1 b1]| |] eqn:E1; [|destruct X|destruct X].
  destruct (surf_build ex_fp 8 (newBuilder 1 0 0) [[3]; [4; 5]] [[3]; [4]] 0) as [[s3 b3]| |] eqn:E3; [|destruct X|destruct X].
  destruct (surf_build ex_fp 8 b1 [[3]; [4; 5]] [[3]; [4]] 0) as [[s2 b2]| |] eqn:E2; [|destruct X|destruct X].
  destruct X as [X1 X2].
  exists ex_fp, 1, 0, 0, [[1]; [2]], [[1]; [2]], [[3]; [4; 5]], [[3]; [4]], 0%Z, s1, s2, s3, b1, b2, b3, [3].
  split; [apply validb_input_ok; reflexivity|]. split; [apply validb_input_ok; reflexivity|]. split; [now left|].
  repeat (split; auto). rewrite X1, X2. discriminate.
Qed.
Print Assumptions C23_builder_reusable_refuted.
