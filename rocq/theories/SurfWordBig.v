(** * SurfWordBig: with 6 GiB of values Get returns the value of another key. *)
From Verif Require Import Base BitsModel VecModel SurfModel SurfWord VecProofs2 SurfTrie SurfBuild SurfEnc SurfBuildTop SurfSpec SurfTop SurfSize
  SurfAlias SurfAliasProofs SurfWordProofs SurfWordBuild SurfWordBuild2 SurfWordLim SurfWordSpec SurfWordTop.

Definition big_keys : list bytes := [[1]; [2]; [3]].

Lemma one_level vs (lvs : list level) : length lvs = 1 -> forall k, vals_ok (firstn k lvs) vs /\ vals_ok (skipn k lvs) vs.
Proof.
  intros L. destruct lvs as [|lv [|]]; try discriminate. unfold vals_ok. intros [|[|k]]; cbn [firstn skipn map]; rewrite vv_init32_one; auto.
Qed.

Lemma big_one fp : exists s1 b1, surf_build fp 2 (newBuilder 1 0 0) big_keys (ivals 3) 0 = Ok (s1, b1) /\
  surf_find fp s1 [3] = Ok (Some (SparsePart, 2)) /\ vv_bytes (ls_values (s_ls s1)) = [0; 1; 2].
Proof. eexists. eexists. split; [vm_compute; reflexivity|]. split; vm_compute; reflexivity. Qed.

Theorem big_get fp vs v1 v2 v3 : N.of_nat vs = 2147483648%N -> length v1 = vs -> length v2 = vs -> length v3 = vs ->
  valid_input vs 0 0 big_keys [v1; v2; v3] /\
  exists s, built32 fp vs 0 0 big_keys [v1; v2; v3] 0 s /\ surf_get32 fp s [3] = Ok (Some v1) /\ length (vv_bytes (ls_values (s_ls s))) = 3 * vs.
Proof.
  intros B L1 L2 L3.
  assert (V : valid_input vs 0 0 big_keys [v1; v2; v3]).
  { constructor.
    - discriminate.
    - unfold big_keys, increasing. repeat constructor; vm_compute; reflexivity.
    - discriminate.
    - repeat constructor.
    - cbn. lia.
    - cbn [length big_keys firstn]. repeat constructor; lia.
    - lia.
    - vm_compute. reflexivity. }
  split; [exact V|].
  assert (HF : Forall (fun k => length k < 2) big_keys) by (repeat constructor).
  assert (SM : (N.of_nat (length big_keys) < 8388608)%N) by (vm_compute; reflexivity).
  assert (SK : Forall shortkey big_keys) by (repeat constructor).
  destruct (build32_gen fp vs 0 0 big_keys [v1; v2; v3] 0%Z 2 V HF SM SK) as (s & b' & E & R & G).
  assert (LV : length (b_levels b') = 1). { assert (Q : length (b_levels b') = length (trie (combine big_keys [v1; v2; v3]))) by (eapply VecProofs.Forall2_length; exact R). rewrite Q. vm_compute. reflexivity. }
  destruct (one_level vs _ LV (b_sparseStart b')) as (O1 & O2). specialize (G O1 O2).
  assert (BU : built fp vs 0 0 big_keys [v1; v2; v3] 0 s) by (exists 2, b'; auto).
  exists s. split; [exists 2; auto|].
  destruct (built_lim fp vs 0 0 big_keys _ 0%Z s V BU SM) as (LL1 & LL2).
  rewrite build_up in E by (auto; apply V).
  destruct (big_one fp) as (s1 & b1 & E1 & F1 & VB). change (length big_keys) with 3 in E. rewrite E1 in E. cbn [mapres fst snd] in E.
  apply OkI in E. assert (ES : ups (nval [v1; v2; v3]) vs s1 = s) by (now apply (f_equal fst) in E). clear E E1.
  assert (FD : surf_find fp s [3] = Ok (Some (SparsePart, 2))) by (rewrite <- ES, find_up; exact F1).
  assert (SK3 : shortkey [3]) by (vm_compute; reflexivity).
  assert (VV : ls_values (s_ls s) = mkVV (firstn vs v1 ++ firstn vs v2 ++ firstn vs v3 ++ []) vs).
  { rewrite <- ES. cbn [ups upls ls_setValues s_ls ls_values]. unfold upvv. rewrite VB. reflexivity. }
  split; [|rewrite VV; cbn [vv_bytes]; rewrite !app_length, !firstn_length; cbn [length]; lia].
  rewrite (get32_find fp s [3] _ LL1 LL2 SK3 FD). cbn [part_values].
  rewrite VV. unfold valueVector_get32. cbn [vv_valueSize vv_bytes]. cbv zeta.
  assert (M : mul32 2 vs = 0).
  { unfold mul32, w32, two32. replace (N.of_nat (2 * vs)) with 4294967296%N by lia. reflexivity. }
  rewrite M. rewrite add32_small by fit. cbn [Nat.add]. unfold slice. cbn [Nat.leb andb skipn].
  rewrite app_length, firstn_length. destruct (Nat.leb_spec vs (Nat.min vs (length v1) + length (firstn vs v2 ++ firstn vs v3 ++ []))); [|lia]. cbn [bind].
  rewrite Nat.sub_0_r, firstn_app, firstn_firstn, firstn_length, Nat.min_id. rewrite (firstn_all2 v1) by lia. replace (vs - Nat.min vs (length v1)) with 0 by lia. now rewrite firstn_O, app_nil_r.
Qed.

Theorem big_wrong : exists fp vs keys vals s k v w, valid_input vs 0 0 keys vals /\ built32 fp vs 0 0 keys vals 0 s /\
  In (k, v) (combine keys vals) /\ length v = vs /\ surf_get32 fp s k = Ok (Some w) /\ w <> v.
Proof.
  assert (Q : exists vs, N.of_nat vs = 2147483648%N) by (exists (N.to_nat 2147483648); apply N2Nat.id). destruct Q as (vs & B).
  destruct (big_get (fun _ => 0%N) vs (repeat 1 vs) (repeat 2 vs) (repeat 3 vs) B) as (V & s & B32 & G & _); try apply repeat_length.
  exists (fun _ => 0%N), vs, big_keys, [repeat 1 vs; repeat 2 vs; repeat 3 vs], s, [3], (repeat 3 vs), (repeat 1 vs).
  split; [exact V|]. split; [exact B32|]. split; [right; right; left; reflexivity|]. split; [apply repeat_length|]. split; [exact G|].
  destruct vs as [|n]; [discriminate B|]. cbn [repeat]. discriminate.
Qed.
