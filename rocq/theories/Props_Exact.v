(** * SuRF: exactly which queries hit (C45), and when the dense/sparse split shows (C20). *)
From Verif Require Import Base BitsModel VecModel SurfModel SurfTrie SurfEnc SurfBuildTop SurfSpec SurfWalk SurfTop SurfGetSpec SurfExact SurfAll Props_Surf.

(** C45, for every query. *)
Theorem C45_get_all : forall fp vs h r keys vals hint s q, valid_input vs h r keys vals -> built fp vs h r keys vals hint s ->
  wf_bytes q = true -> forall v, surf_get fp s q = Ok (Some v) <->
    exists i k w, nth_error keys i = Some k /\ nth_error vals i = Some w /\ v = firstn vs w /\ hit_by fp h r (ld_height (s_ld s)) keys k q.
Proof. exact get_all. Qed.
Print Assumptions C45_get_all.

(** A single condition remains for queries that are not proper prefixes of stored keys. *)
Theorem C45_get_exact : forall fp vs h r keys vals hint s q, valid_input vs h r keys vals -> built fp vs h r keys vals hint s ->
  wf_bytes q = true -> ~ proper_prefix_of_some keys q ->
  forall v, surf_get fp s q = Ok (Some v) <->
    exists i k w, nth_error keys i = Some k /\ nth_error vals i = Some w /\ v = firstn vs w /\
      ~ continued keys k /\ is_prefix (dprefix keys k) q /\ suffix_agrees fp h r (length (dprefix keys k)) k q.
Proof. exact get_exact. Qed.
Print Assumptions C45_get_exact.

(** Nothing is told apart by more than 57 hash bits: with 58 to 64 of them and no key bits every
    query that begins with a distinguishing prefix hits. *)
Theorem C45_wide_hash : forall fp vs h keys vals hint s q i k w, valid_input vs h 0 keys vals -> built fp vs h 0 keys vals hint s ->
  wf_bytes q = true -> ~ proper_prefix_of_some keys q -> 57 < h -> nth_error keys i = Some k -> nth_error vals i = Some w ->
  ~ continued keys k -> is_prefix (dprefix keys k) q -> surf_get fp s q = Ok (Some (firstn vs w)).
Proof. exact get_wide_hash. Qed.
Print Assumptions C45_wide_hash.

(** The hypotheses are met, and both answers occur: two queries that begin with the
    distinguishing prefix [98;5;5;2] of the stored key [98;5;5;2;9;9]; the second has the same
    5 hash bits and 9 key bits. *)
Definition near_miss : bytes := [98; 5; 5; 2; 9; 8].
Definition near_hit : bytes := [98; 5; 5; 2; 9; 22].
Example C45_example : exists s, built ex_fp 2 5 9 ex_keys ex_vals 1000 s /\
  (forall q, In q [near_miss; near_hit] -> wf_bytes q = true /\ ~ proper_prefix_of_some ex_keys q /\ is_prefix (dprefix ex_keys [98; 5; 5; 2; 9; 9]) q) /\
  surf_get ex_fp s near_miss = Ok None /\ surf_get ex_fp s near_hit = Ok (Some [7; 107]).
Proof.
  destruct (ex_filter 1000) as [[s b]| |] eqn:E; [|vm_compute in E; discriminate E|vm_compute in E; discriminate E].
  exists s. split; [apply ex_built; eauto|].
  assert (G : match ex_filter 1000 with Ok (s, _) => (surf_get ex_fp s near_miss, surf_get ex_fp s near_hit) | _ => (Hang, Hang) end = (Ok None, Ok (Some [7; 107])))
    by (vm_compute; reflexivity).
  rewrite E in G. split; [|split; [exact (f_equal fst G)|exact (f_equal snd G)]].
  intros q Hq. split; [|split].
  - destruct Hq as [<-|[<-|[]]]; reflexivity.
  - intros (k & Hk & P & NE). apply is_prefixb_iff in P.
    assert (X : forallb (fun k => negb (is_prefixb near_miss k) && negb (is_prefixb near_hit k)) ex_keys = true) by (vm_compute; reflexivity).
    rewrite forallb_forall in X. specialize (X k Hk). apply andb_true_iff in X as (X1 & X2). destruct Hq as [<-|[<-|[]]]; [rewrite P in X1; discriminate X1|rewrite P in X2; discriminate X2].
  - destruct Hq as [<-|[<-|[]]]; [exists [9; 8]|exists [9; 22]]; reflexivity.
Qed.

(** C20: the layout shows exactly on the queries that end in a gap between the dense levels of
    the two layouts. *)
Theorem C20_split_exact : forall fp vs h r keys vals hint1 hint2 s1 s2 q, valid_input vs h r keys vals ->
  built fp vs h r keys vals hint1 s1 -> built fp vs h r keys vals hint2 s2 -> wf_bytes q = true ->
  (surf_get fp s1 q <> surf_get fp s2 q <-> exists k, In k keys /\ gap keys k q /\ same_hash fp h k q /\
     Nat.min (ld_height (s_ld s1)) (ld_height (s_ld s2)) <= levels_above keys q < Nat.max (ld_height (s_ld s1)) (ld_height (s_ld s2))).
Proof. exact split_exact. Qed.
Print Assumptions C20_split_exact.

(** A gap below one branching: the query [120;1] between the branching [120] and the stored key [120;1;2;3]. *)
Definition gap_keys : list bytes := [[97]; [120; 0]; [120; 1; 2; 3]; [120; 1; 2; 3; 4]; [120; 1; 2; 3; 5; 1]; [120; 1; 2; 3; 5; 2]].
Notation gap_filter hint := (surf_build ex_fp 8 (newBuilder 1 0 0) gap_keys [[1]; [2]; [3]; [4]; [5]; [6]] hint).
Example C20_gap_example : valid_input 1 0 0 gap_keys [[1]; [2]; [3]; [4]; [5]; [6]] /\ levels_above gap_keys [120; 1] = 2 /\ gap gap_keys [120; 1; 2; 3] [120; 1] /\
  exists s1 s2, built ex_fp 1 0 0 gap_keys [[1]; [2]; [3]; [4]; [5]; [6]] 0 s1 /\ built ex_fp 1 0 0 gap_keys [[1]; [2]; [3]; [4]; [5]; [6]] 1000 s2 /\
    surf_get ex_fp s1 [120; 1] = Ok (Some [3]) /\
    ld_height (s_ld s1) = 0 /\ ld_height (s_ld s2) = 3 /\ surf_get ex_fp s2 [120; 1] = Ok None.
Proof.
  split; [apply validb_input_ok; reflexivity|]. split; [reflexivity|]. split.
  { split; [exists [120; 1; 2; 3; 4]; split; [cbn; auto|split; [exists [4]; reflexivity|discriminate]]|]. split; [exists [2; 3]; reflexivity|]. split; [discriminate|].
    split; [|right; reflexivity]. intros k Hk P. apply is_prefixb_iff in P. apply is_prefixb_iff. cbn in Hk.
    destruct Hk as [<-|[<-|[<-|[<-|[<-|[<-|[]]]]]]]; try discriminate P; reflexivity. }
  assert (X : match gap_filter 0, gap_filter 1000 with Ok (s1, _), Ok (s2, _) => (surf_get ex_fp s1 [120; 1], surf_get ex_fp s2 [120; 1], ld_height (s_ld s1), ld_height (s_ld s2)) | _, _ => (Hang, Hang, 9, 9) end =
    (Ok (Some [3]), Ok None, 0, 3)) by (vm_compute; reflexivity).
  assert (F : Forall (fun k => length k < 8) gap_keys) by (repeat constructor; cbn; lia).
  destruct (gap_filter 0) as [[s1 b1]| |] eqn:E1; [|discriminate X|discriminate X]. destruct (gap_filter 1000) as [[s2 b2]| |] eqn:E2; [|discriminate X|discriminate X].
  exists s1, s2. split; [exists 8, b1; auto|]. split; [exists 8, b2; auto|]. split; [exact (f_equal (fun p => fst (fst (fst p))) X)|].
  split; [exact (f_equal (fun p => snd (fst p)) X)|]. split; [exact (f_equal snd X)|exact (f_equal (fun p => snd (fst (fst p))) X)].
Qed.
