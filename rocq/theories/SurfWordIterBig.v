(** * SurfWordIterBig: with 6 GiB of values an iterator shows the value of another key. *)
From Verif Require Import Base BitsModel VecModel SurfModel SurfIter SurfIterSpec SurfWord SurfWordIter VecProofs2 SurfTrie SurfBuild SurfEnc SurfBuildTop SurfSpec SurfTop SurfSize
  SurfAlias SurfAliasProofs SurfWordProofs SurfWordBuild SurfWordBuild2 SurfWordLim SurfWordSpec SurfWordTop SurfWordBig SurfWordIterSpec.

Lemma big_seek fp : exists s1 b1 it, surf_build fp 2 (newBuilder 1 0 0) big_keys (ivals 3) 0 = Ok (s1, b1) /\
  vv_bytes (ls_values (s_ls s1)) = [0; 1; 2] /\ d_isComplete (i_dense it) = false /\ it_valid it = true /\ it_key it = Ok [3] /\
  forall f vs, it_seek32 (ups f vs s1) (newIterator32 (ups f vs s1)) [3] = Ok (it, true) /\
    p_Value32 (s_ls (ups f vs s1)) (i_sparse it) = valueVector_get32 (ls_values (s_ls (ups f vs s1))) 2.
Proof.
  eexists. eexists. eexists. split; [vm_compute; reflexivity|]. split; [vm_compute; reflexivity|].
  split; [|split; [|split; [|intros f vs; split; [vm_compute; reflexivity|]]]]; [vm_compute; reflexivity..|].
  unfold p_Value32. match goal with |- (p <- ?e ;; _) = _ => replace e with (Ok 2) by (vm_compute; reflexivity) | |- _ => idtac end. reflexivity.
Qed.

Theorem big_iter fp vs v1 v2 v3 : N.of_nat vs = 2147483648%N -> length v1 = vs -> length v2 = vs -> length v3 = vs ->
  valid_input vs 0 0 big_keys [v1; v2; v3] /\
  exists s, built32 fp vs 0 0 big_keys [v1; v2; v3] 0 s /\ trace32 s (newIterator32 s) [ISeek [3]] = Ok [(true, Some ([3], v1))].
Proof.
  intros B L1 L2 L3. destruct (big_get fp vs v1 v2 v3 B L1 L2 L3) as (V & _). split; [exact V|].
  assert (HF : Forall (fun k => length k < 2) big_keys) by (repeat constructor).
  assert (SM : (N.of_nat (length big_keys) < 8388608)%N) by (vm_compute; reflexivity).
  assert (SK : Forall shortkey big_keys) by (repeat constructor).
  destruct (build32_gen fp vs 0 0 big_keys [v1; v2; v3] 0%Z 2 V HF SM SK) as (s & b' & E & R & G).
  assert (LV : length (b_levels b') = 1). { assert (Q : length (b_levels b') = length (trie (combine big_keys [v1; v2; v3]))) by (eapply VecProofs.Forall2_length; exact R). rewrite Q. vm_compute. reflexivity. }
  destruct (one_level vs _ LV (b_sparseStart b')) as (O1 & O2). specialize (G O1 O2).
  exists s. split; [exists 2; auto|].
  rewrite build_up in E by (auto; apply V).
  destruct (big_seek fp) as (s1 & b1 & it & E1 & VB & DC & IV & IK & X). change (length big_keys) with 3 in E. rewrite E1 in E. cbn [mapres fst snd] in E.
  apply OkI in E. assert (ES : ups (nval [v1; v2; v3]) vs s1 = s) by (now apply (f_equal fst) in E). clear E E1.
  destruct (X (nval [v1; v2; v3]) vs) as (X1 & X2). rewrite ES in X1, X2. clear X.
  assert (VV : ls_values (s_ls s) = mkVV (firstn vs v1 ++ firstn vs v2 ++ firstn vs v3 ++ []) vs).
  { rewrite <- ES. cbn [ups upls ls_setValues s_ls ls_values]. unfold upvv. rewrite VB. reflexivity. }
  assert (VE : it_value32 s it = Ok v1).
  { unfold it_value32. rewrite DC, X2, VV. unfold valueVector_get32. cbn [vv_valueSize vv_bytes]. cbv zeta.
    assert (M : mul32 2 vs = 0).
    { unfold mul32, w32, two32. replace (N.of_nat (2 * vs)) with 4294967296%N by lia. reflexivity. }
    rewrite M. rewrite add32_small by fit. cbn [Nat.add]. unfold slice. cbn [Nat.leb andb skipn].
    rewrite app_length, firstn_length. destruct (Nat.leb_spec vs (Nat.min vs (length v1) + length (firstn vs v2 ++ firstn vs v3 ++ []))); [|lia].
    rewrite Nat.sub_0_r, firstn_app, firstn_firstn, firstn_length, Nat.min_id. rewrite (firstn_all2 v1) by lia. replace (vs - Nat.min vs (length v1)) with 0 by lia. now rewrite firstn_O, app_nil_r. }
  cbn [trace32 call_out32]. rewrite X1. cbn [bind]. unfold look32. rewrite IV, IK. cbn [bind]. rewrite VE. reflexivity.
Qed.

Theorem big_iter_wrong : exists fp vs keys vals s k v w, valid_input vs 0 0 keys vals /\ built32 fp vs 0 0 keys vals 0 s /\
  In (k, v) (combine keys vals) /\ length v = vs /\ trace32 s (newIterator32 s) [ISeek k] = Ok [(true, Some (k, w))] /\ w <> v.
Proof.
  assert (Q : exists vs, N.of_nat vs = 2147483648%N) by (exists (N.to_nat 2147483648); apply N2Nat.id). destruct Q as (vs & B).
  destruct (big_iter (fun _ => 0%N) vs (repeat 1 vs) (repeat 2 vs) (repeat 3 vs) B) as (V & s & B32 & G); try apply repeat_length.
  exists (fun _ => 0%N), vs, big_keys, [repeat 1 vs; repeat 2 vs; repeat 3 vs], s, [3], (repeat 3 vs), (repeat 1 vs).
  split; [exact V|]. split; [exact B32|]. split; [right; right; left; reflexivity|]. split; [apply repeat_length|]. split; [exact G|].
  destruct vs as [|n]; [discriminate B|]. cbn [repeat]. discriminate.
Qed.
