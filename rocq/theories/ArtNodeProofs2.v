(** * ArtNodeProofs2: removal, growing and shrinking of node layouts. *)
From Verif Require Import Base BitsModel BitsFacts VecModel VecProofs VecProofs2 ArtNode ArtNodeProofs.
Ltac Zify.zify_post_hook ::= Z.div_mod_to_equations.
Ltac blia := lia.

(** ** removeChild *)
Lemma del_small {A} (l : list A) i d :
  i < length l ->
  exists t l', slice_from l (i + 1) = Ok t /\ copy_at l i t = Ok l' /\ length l' = length l /\
    (forall j, j < i -> nth j l' d = nth j l d) /\
    (forall j, i <= j -> j + 1 < length l -> nth j l' d = nth (j + 1) l d).
Proof.
  intros Hi. unfold slice_from. rewrite (proj2 (Nat.leb_le (i + 1) (length l))) by blia.
  eexists. eexists. split; [reflexivity|]. unfold copy_at.
  rewrite (proj2 (Nat.leb_le i (length l))) by blia. split; [reflexivity|].
  rewrite skipn_length. replace (Nat.min (length l - i) (length l - (i + 1))) with (length l - (i + 1)) by blia.
  split; [rewrite !app_length, !firstn_length, !skipn_length; blia|]. split.
  - intros j Hj. rewrite app_nth1 by (rewrite firstn_length; blia). apply nth_firstn. auto.
  - intros j Hj Hj2. rewrite app_nth2 by (rewrite firstn_length; blia). rewrite firstn_length.
    rewrite app_nth1 by (rewrite firstn_length, skipn_length; blia).
    rewrite nth_firstn by blia. rewrite nth_skipn. f_equal. blia.
Qed.

Lemma remove_small_spec n b pos : small_ok n -> pos < n_num n -> nth pos (n_keys n) 0 = b ->
  exists n', removeChild n pos = Ok n' /\ small_ok n' /\ n_type n' = n_type n /\ hdr n' = hdr n /\
    (forall b', V n' b' = if Nat.eqb b' b then None else V n b').
Proof.
  intros S Hp Hk.
  pose proof (so_num n S) as Hnum. pose proof (so_klen n S) as HKl. pose proof (so_clen n S) as HCl.
  assert (Hcap : cap (n_type n) <= 16) by (pose proof (so_type n S); destruct (n_type n); try discriminate; cbn; blia).
  destruct (del_small (n_keys n) pos 0) as (kt & ks & Ek1 & Ek2 & Ekl & Ek3 & Ek4); [blia|].
  destruct (del_small (n_children n) pos None) as (ct & cs & Ec1 & Ec2 & Ecl & Ec3 & Ec4); [blia|].
  assert (E : removeChild n pos = Ok (set_num (set_children (set_keys n ks) (set_nth cs (n_num n - 1) None)) (n_num n - 1))).
  { unfold removeChild. assert (Ed : dec8 (n_num n) = n_num n - 1) by (unfold dec8; blia).
    rewrite Ek1, Ec1. cbn [bind]. rewrite Ek2, Ec2. cbn [bind]. rewrite Ed. unfold upd.
    rewrite (proj2 (Nat.ltb_lt _ _)) by blia. cbn [bind].
    pose proof (so_type n S) as T. destruct (n_type n); try discriminate; reflexivity. }
  rewrite E. clear E. eexists. split; [reflexivity|].
  set (n' := set_num _ _).
  assert (HN : n_num n' = n_num n - 1) by reflexivity.
  set (sh := fun j => if Nat.ltb j pos then j else j + 1).
  assert (HK : forall j, j < n_num n - 1 -> nth j (n_keys n') 0 = nth (sh j) (n_keys n) 0).
  { intros j Hj. change (n_keys n') with ks. unfold sh. destruct (Nat.ltb_spec j pos); [apply Ek3|apply Ek4]; blia. }
  assert (HC : forall j, j < n_num n - 1 -> nth j (n_children n') None = nth (sh j) (n_children n) None).
  { intros j Hj. change (n_children n') with (set_nth cs (n_num n - 1) None). rewrite nth_set_nth.
    destruct (Nat.eqb_spec (n_num n - 1) j); [blia|]. cbn [andb].
    unfold sh. destruct (Nat.ltb_spec j pos); [apply Ec3|apply Ec4]; blia. }
  assert (Hsh : forall j, j < n_num n - 1 -> sh j < n_num n) by (intros j Hj; unfold sh; destruct (Nat.ltb_spec j pos); blia).
  assert (S' : small_ok n').
  { constructor.
    - apply (so_type n S).
    - change (n_keys n') with ks. change (n_type n') with (n_type n). blia.
    - change (n_children n') with (set_nth cs (n_num n - 1) None). rewrite set_nth_length.
      change (n_type n') with (n_type n). blia.
    - rewrite HN. change (n_type n') with (n_type n). blia.
    - intros i Hi. rewrite HN in Hi. rewrite HK by auto. apply (so_byte n S); auto.
    - intros i j Hi Hj. rewrite HN in *. rewrite !HK by auto. intros E.
      apply (so_inj n S) in E; auto. unfold sh in E. revert E.
      destruct (Nat.ltb_spec i pos), (Nat.ltb_spec j pos); blia.
    - intros i Hi. rewrite HN in Hi. rewrite HC by auto. apply (so_some n S); auto. }
  split; [exact S'|]. split; [reflexivity|]. split; [reflexivity|].
  intros b'. apply option_ext. intros p. rewrite V_small by auto.
  destruct (Nat.eqb_spec b' b) as [->|Hne].
  - split; [|discriminate]. intros (i & Hi & Hki & Hci). rewrite HN in Hi. rewrite HK in Hki by auto.
    assert (E : sh i = pos) by (apply (so_inj n S); auto; congruence).
    unfold sh in E. destruct (Nat.ltb_spec i pos); blia.
  - rewrite V_small by auto. split.
    + intros (i & Hi & Hki & Hci). rewrite HN in Hi. rewrite HK in Hki by auto. rewrite HC in Hci by auto.
      exists (sh i). auto.
    + intros (i & Hi & Hki & Hci).
      assert (i <> pos) by congruence.
      set (j := if Nat.ltb i pos then i else i - 1).
      assert (Hj : j < n_num n - 1) by (unfold j; destruct (Nat.ltb_spec i pos); blia).
      assert (Hsj : sh j = i) by (unfold sh, j; destruct (Nat.ltb_spec i pos);
        [destruct (Nat.ltb_spec i pos)|destruct (Nat.ltb_spec (i - 1) pos)]; blia).
      exists j. rewrite HN, HK, HC, Hsj by auto. auto.
Qed.

Lemma not64_lt x : (x < two64)%N -> (not64 x < two64)%N.
Proof.
  intros H. apply (tb_lt_pow2 _ 64). intros i Hi. rewrite tb_not64.
  rewrite (proj2 (Nat.ltb_ge i 64)) by blia. apply (tb_high _ 64); auto.
Qed.

Lemma land_lt64 x y : (x < two64)%N -> (N.land x y < two64)%N.
Proof.
  intros H. apply (tb_lt_pow2 _ 64). intros i Hi. rewrite tb_land.
  rewrite (tb_high x 64) by (exact H || blia). reflexivity.
Qed.

Lemma removeChild_spec n b slot pos : layout_ok n -> V n b <> None -> slot_of n b slot pos ->
  exists n', removeChild n pos = Ok n' /\ layout_ok n' /\ n_type n' = n_type n /\ hdr n' = hdr n /\
    (forall b', V n' b' = if Nat.eqb b' b then None else V n b').
Proof.
  intros LO HV Hs.
  assert (Hb : b < 256).
  { destruct (Nat.lt_ge_cases b 256); auto. exfalso. apply HV. now apply V_byte. }
  destruct LO as (Hn & Hc & L). unfold slot_of in Hs.
  destruct (n_type n) eqn:Et.
  - destruct Hs as (-> & Hp & Hk). destruct (remove_small_spec n b pos L Hp Hk) as (n' & E & S & T & H & HV').
    exists n'. rewrite Et in T. auto using small_layout.
  - destruct Hs as (-> & Hp & Hk). destruct (remove_small_spec n b pos L Hp Hk) as (n' & E & S & T & H & HV').
    exists n'. rewrite Et in T. auto using small_layout.
  - destruct Hs as (-> & Hix). destruct (o48_used n L b slot Hix) as (Hp & Hnn & Htb).
    unfold removeChild. rewrite Et. rewrite (idx_in _ b 0) by (rewrite (o48_ilen n L); auto).
    cbn [bind]. rewrite Hix. cbn [Nat.eqb]. replace (S slot - 1) with slot by blia.
    unfold upd. rewrite (o48_ilen n L), (o48_clen n L).
    rewrite (proj2 (Nat.ltb_lt b 256)), (proj2 (Nat.ltb_lt slot 48)) by auto. cbn [bind].
    eexists. split; [reflexivity|]. set (n' := set_num _ _).
    assert (HI : forall b', nth b' (n_index n') 0 = if Nat.eqb b' b then 0 else nth b' (n_index n) 0).
    { intros b'. change (n_index n') with (set_nth (n_index n) b 0). rewrite nth_set_nth, (Nat.eqb_sym b b').
      destruct (Nat.eqb b' b); cbn [andb]; auto. rewrite (o48_ilen n L), (proj2 (Nat.ltb_lt b 256)); auto. }
    assert (HCh : forall p, p <> slot -> nth p (n_children n') None = nth p (n_children n) None).
    { intros p Hne. change (n_children n') with (set_nth (n_children n) slot None). rewrite nth_set_nth.
      destruct (Nat.eqb_spec slot p); [congruence|auto]. }
    assert (HS : forall b' p, nth b' (n_index n) 0 = S p -> b' <> b -> p <> slot).
    { intros b' p E Hne ->. apply Hne. eapply (o48_inj n L); eauto. }
    assert (HV' : forall b', V n' b' = if Nat.eqb b' b then None else V n b').
    { intros b'. unfold V. change (n_type n') with (n_type n). rewrite Et, HI.
      destruct (Nat.eqb_spec b' b); auto. destruct (nth b' (n_index n) 0) as [|p] eqn:E; auto.
      apply HCh. eauto. }
    pose proof (nchild_del n n' b Hb HV HV') as NC.
    assert (HT : forall i, tb (n_slots n') i = tb (n_slots n) i && negb (Nat.eqb i (47 - slot))).
    { intros i. change (n_slots n') with (N.land (n_slots n) (not64 (slot_bit slot))).
      rewrite tb_land, tb_not64, tb_slot_bit, (proj2 (Nat.ltb_lt slot 48)) by auto. cbn [andb].
      destruct (Nat.ltb_spec i 64); auto.
      rewrite (tb_high (n_slots n) 64) by (exact (o48_lt n L) || blia). reflexivity. }
    split; [|split; [exact Et|split; [reflexivity|exact HV']]].
    split; [|split].
    + change (n_num n') with (dec8 (n_num n)). rewrite Hn, NC. unfold dec8. blia.
    + change (n_type n') with (n_type n). rewrite Et. cbn [cap] in *. blia.
    + change (n_type n') with (n_type n). rewrite Et. constructor.
      * exact Et.
      * change (n_index n') with (set_nth (n_index n) b 0). rewrite set_nth_length. apply (o48_ilen n L).
      * change (n_children n') with (set_nth (n_children n) slot None). rewrite set_nth_length. apply (o48_clen n L).
      * apply land_lt64, (o48_lt n L).
      * intros b' p. rewrite HI, HT. destruct (Nat.eqb_spec b' b); [discriminate|]. intros E.
        destruct (o48_used n L b' p E) as (?&?&Ht). assert (p <> slot) by eauto.
        rewrite HCh by auto. rewrite Ht. split; [auto|]. split; [auto|].
        destruct (Nat.eqb_spec (47 - p) (47 - slot)); [blia|reflexivity].
      * intros b1 b2 p. rewrite !HI. destruct (Nat.eqb_spec b1 b), (Nat.eqb_spec b2 b); try discriminate.
        apply (o48_inj n L).
      * intros i H1 H2. rewrite HT, (o48_top n L) by auto. destruct (Nat.eqb_spec i (47 - slot)); [blia|reflexivity].
      * enough (S (cnt (tb (n_slots n')) 48) = S (nchild n')) by blia. rewrite <- NC, <- (o48_cnt n L). symmetry.
        apply (cnt_set _ _ (47 - slot)); try blia; auto.
        -- rewrite HT, Nat.eqb_refl. apply andb_false_r.
        -- intros i _ Hne. rewrite HT. destruct (Nat.eqb_spec i (47 - slot)); [congruence|]. now rewrite andb_true_r.
  - destruct Hs as (-> & ->). unfold removeChild. rewrite Et. unfold upd. rewrite L.
    rewrite (proj2 (Nat.ltb_lt b 256)) by auto. cbn [bind]. eexists. split; [reflexivity|].
    set (n' := set_num _ _).
    assert (HV' : forall b', V n' b' = if Nat.eqb b' b then None else V n b').
    { intros b'. unfold V. change (n_type n') with (n_type n). rewrite Et.
      change (n_children n') with (set_nth (n_children n) b None).
      rewrite nth_set_nth, (Nat.eqb_sym b b'), L.
      destruct (Nat.eqb b' b); cbn [andb]; auto. rewrite (proj2 (Nat.ltb_lt b 256)); auto. }
    pose proof (nchild_del n n' b Hb HV HV') as NC.
    split; [|split; [exact Et|split; [reflexivity|exact HV']]].
    split; [|split].
    + change (n_num n') with (dec8 (n_num n)). rewrite Hn, NC. unfold dec8. blia.
    + change (n_type n') with (n_type n). rewrite Et. cbn [cap] in *. blia.
    + change (n_type n') with (n_type n). rewrite Et.
      change (n_children n') with (set_nth (n_children n) b None). rewrite set_nth_length. auto.
  - contradiction.
Qed.

(** ** Growing *)
Lemma copy_at_0 {A} (dst src : list A) : length src <= length dst ->
  copy_at dst 0 src = Ok (src ++ skipn (length src) dst).
Proof.
  intros H. unfold copy_at. cbn [Nat.leb]. rewrite Nat.sub_0_r, Nat.min_r by blia.
  cbn [firstn app Nat.add]. now rewrite firstn_all.
Qed.

Lemma hdr_copyNode a b : hdr (copyNode a b) = hdr b.
Proof. reflexivity. Qed.

Lemma grow4_spec n b c : layout_ok n -> n_type n = Node4 -> nchild n = 4 -> b < 256 -> V n b = None ->
  exists n', growAndInsert n b c = Ok n' /\ layout_ok n' /\ n_type n' = Node16 /\ hdr n' = hdr n /\
    (forall b', V n' b' = if Nat.eqb b' b then Some c else V n b').
Proof.
  intros (Hn & Hc & L) Et NC Hb HV. rewrite Et in *.
  pose proof (so_klen n L) as HK. pose proof (so_clen n L) as HC. rewrite Et in *. cbn [cap] in *.
  assert (N4 : n_num n = 4) by (rewrite Hn, NC; reflexivity).
  unfold growAndInsert. rewrite Et. unfold grow4.
  rewrite !copy_at_0 by (cbn [newNode16 n_keys n_children]; unfold zeros, nils; rewrite repeat_length; blia).
  rewrite HK, HC. cbn [bind].
  set (m := copyNode _ n).
  assert (HK' : forall i, i < 4 -> nth i (n_keys m) 0 = nth i (n_keys n) 0).
  { intros i Hi. change (n_keys m) with (n_keys n ++ skipn 4 (zeros 16)). apply app_nth1. blia. }
  assert (HC' : forall i, i < 4 -> nth i (n_children m) None = nth i (n_children n) None).
  { intros i Hi. change (n_children m) with (n_children n ++ skipn 4 (nils 16)). apply app_nth1. blia. }
  assert (HN : n_num m = 4) by exact N4.
  assert (S : small_ok m).
  { constructor; auto.
    - change (n_keys m) with (n_keys n ++ skipn 4 (zeros 16)). rewrite app_length. cbn. blia.
    - change (n_children m) with (n_children n ++ skipn 4 (nils 16)). rewrite app_length. cbn. blia.
    - rewrite HN. cbn. blia.
    - intros i. rewrite HN. intros Hi. rewrite HK' by auto. apply (so_byte n L). blia.
    - intros i j. rewrite HN. intros Hi Hj. rewrite !HK' by auto. apply (so_inj n L); blia.
    - intros i. rewrite HN. intros Hi. rewrite HC' by auto. apply (so_some n L). blia. }
  assert (VE : forall b', V m b' = V n b').
  { intros b'. apply option_ext. intros p. rewrite (V_small m), (V_small n) by auto.
    rewrite HN, N4. split; intros (i & Hi & H1 & H2); exists i; rewrite HK', HC' in * by auto; auto. }
  destruct (insertChild_spec m b c) as (n' & E & L' & T & H & HV'); auto using small_layout.
  - rewrite (small_count m S), HN. cbn. blia.
  - rewrite VE. auto.
  - exists n'. split; [exact E|]. split; [exact L'|]. split; [exact T|].
    split; [rewrite H; apply hdr_copyNode|]. intros b'. rewrite HV', VE. reflexivity.
Qed.

Lemma fill_index_spec keys : forall ix i, length ix = 256 ->
  (forall j, j < length keys -> nth j keys 0 < 256) ->
  (forall j j', j < length keys -> j' < length keys -> nth j keys 0 = nth j' keys 0 -> j = j') ->
  exists ix', fill_index ix keys i = Ok ix' /\ length ix' = 256 /\
    (forall j, j < length keys -> nth (nth j keys 0) ix' 0 = i + j + 1) /\
    (forall b, (forall j, j < length keys -> nth j keys 0 <> b) -> nth b ix' 0 = nth b ix 0).
Proof.
  induction keys as [|k keys IH]; intros ix i Hl Hb Hi; cbn [fill_index].
  - exists ix. split; [auto|]. split; [auto|]. split; [cbn; blia|auto].
  - assert (Hk : k < 256) by (apply (Hb 0); cbn; blia).
    unfold upd. rewrite Hl, (proj2 (Nat.ltb_lt k 256)) by auto. cbn [bind].
    destruct (IH (set_nth ix k (i + 1)) (i + 1)) as (ix' & E & Hl' & H1 & H2).
    + now rewrite set_nth_length.
    + intros j Hj. apply (Hb (S j)). cbn. blia.
    + intros j j' Hj Hj' E. assert (S j = S j') by (apply Hi; cbn; auto; blia). blia.
    + exists ix'. split; [exact E|]. split; [exact Hl'|]. split.
      * intros [|j] Hj.
        -- cbn [nth]. rewrite H2.
           ++ rewrite nth_set_nth, Nat.eqb_refl, Hl, (proj2 (Nat.ltb_lt k 256)) by auto. cbn [andb]. blia.
           ++ intros j Hj' E2. assert (S j = 0) by (apply Hi; cbn; auto; blia). blia.
        -- cbn [nth]. rewrite H1 by (cbn in Hj; blia). blia.
      * intros b Hnb. rewrite H2.
        -- rewrite nth_set_nth. destruct (Nat.eqb_spec k b); [|auto]. exfalso. apply (Hnb 0); cbn; auto; blia.
        -- intros j Hj. apply (Hnb (S j)). cbn. blia.
Qed.

Lemma tb_grow_slots i : i < 64 -> tb node48GrowSlots i = Nat.leb 32 i.
Proof.
  intros H. unfold tb, node48GrowSlots.
  do 64 (destruct i as [|i]; [reflexivity|]). blia.
Qed.

Lemma tb_empty_slots i : i < 64 -> tb node48EmptySlots i = Nat.leb 48 i.
Proof.
  intros H. unfold tb, node48EmptySlots.
  do 64 (destruct i as [|i]; [reflexivity|]). blia.
Qed.

Lemma grow16_spec n b c : layout_ok n -> n_type n = Node16 -> nchild n = 16 -> b < 256 -> V n b = None ->
  exists n', growAndInsert n b c = Ok n' /\ layout_ok n' /\ n_type n' = Node48 /\ hdr n' = hdr n /\
    (forall b', V n' b' = if Nat.eqb b' b then Some c else V n b').
Proof.
  intros (Hn & Hc & L) Et NC Hb HV. rewrite Et in *.
  pose proof (so_klen n L) as HK. pose proof (so_clen n L) as HC. rewrite Et in *. cbn [cap] in *.
  assert (N16 : n_num n = 16) by (rewrite Hn, NC; reflexivity).
  unfold growAndInsert. rewrite Et. unfold grow16.
  rewrite !copy_at_0 by (cbn [newNode48 n_children]; unfold nils; rewrite repeat_length; blia).
  rewrite HC. cbn [bind].
  destruct (fill_index_spec (n_keys n) (n_index newNode48) 0) as (ix & Ef & Hil & H1 & H2).
  { reflexivity. }
  { intros j Hj. apply (so_byte n L). blia. }
  { intros j j' Hj Hj'. apply (so_inj n L); blia. }
  rewrite Ef. cbn [bind]. set (m := copyNode _ n).
  assert (Hz : forall b, nth b (n_index newNode48) 0 = 0).
  { intros b0. change (n_index newNode48) with (repeat 0 256). destruct (Nat.lt_ge_cases b0 256).
    - apply nth_repeat. - apply nth_overflow. rewrite repeat_length. auto. }
  assert (HC' : forall i, i < 16 -> nth i (n_children m) None = nth i (n_children n) None).
  { intros i Hi. change (n_children m) with (n_children n ++ skipn 16 (nils 48)). apply app_nth1. blia. }
  assert (HIX : forall b p, nth b ix 0 = S p -> p < 16 /\ nth p (n_keys n) 0 = b).
  { intros b0 p E.
    destruct (indexByte (n_keys n) b0) as [j|] eqn:Ej.
    - apply indexByte_Some in Ej as (Hj & Hk & _). rewrite <- Hk, H1 in E by auto.
      assert (p = j) by blia. subst p. split; [blia|auto].
    - apply indexByte_None in Ej. rewrite H2, Hz in E; [discriminate|].
      intros j Hj Ek. apply Ej. rewrite <- Ek. apply nth_In. auto. }
  assert (VE : forall b', V m b' = V n b').
  { intros b'. apply option_ext. intros p. rewrite (V_small n) by auto. rewrite N16.
    unfold V. change (n_type m) with Node48. cbn iota. change (n_index m) with ix. split.
    - destruct (nth b' ix 0) as [|q] eqn:E; [discriminate|]. intros Hp.
      apply HIX in E as (Hq & Hk). rewrite HC' in Hp by auto. eauto.
    - intros (i & Hi & Hk & Hp). rewrite <- Hk, H1 by blia. replace (0 + i + 1) with (S i) by blia.
      rewrite HC' by auto. auto. }
  assert (NCm : nchild m = 16).
  { rewrite <- NC. unfold nchild. apply cnt_ext. intros i _. now rewrite VE. }
  assert (O : ok48 m).
  { constructor.
    - reflexivity.
    - exact Hil.
    - change (n_children m) with (n_children n ++ skipn 16 (nils 48)). rewrite app_length, HC. reflexivity.
    - reflexivity.
    - intros b0 p E. apply HIX in E as (Hp & Hk). split; [blia|]. split.
      + rewrite HC' by auto. apply (so_some n L). blia.
      + change (n_slots m) with node48GrowSlots. rewrite tb_grow_slots by blia. apply Nat.leb_le. blia.
    - intros b1 b2 p E1 E2. apply HIX in E1 as (_ & <-). apply HIX in E2 as (_ & <-). reflexivity.
    - intros i Hi Hi2. change (n_slots m) with node48GrowSlots. rewrite tb_grow_slots by blia. apply Nat.leb_le. blia.
    - rewrite NCm. reflexivity. }
  assert (LM : layout_ok m).
  { split; [|split].
    - rewrite NCm. exact N16.
    - rewrite NCm. cbn. blia.
    - exact O. }
  destruct (insertChild_spec m b c) as (n' & E & L' & T & H & HV'); auto.
  - rewrite NCm. cbn. blia.
  - rewrite VE. auto.
  - exists n'. split; [exact E|]. split; [exact L'|]. split; [exact T|].
    split; [rewrite H; apply hdr_copyNode|]. intros b'. rewrite HV', VE. reflexivity.
Qed.

Lemma spread48_spec n : ok48 n -> forall f i cs, length cs = 256 -> i + f = 256 ->
  exists cs', spread48 n f i cs = Ok cs' /\ length cs' = 256 /\
    (forall b, i <= b -> V n b <> None -> nth b cs' None = V n b) /\
    (forall b, b < i \/ V n b = None -> nth b cs' None = nth b cs None).
Proof.
  intros O. induction f as [|f IH]; intros i cs Hl Hf; cbn [spread48].
  - exists cs. split; [auto|]. split; [auto|]. split; auto. intros b Hb HV. exfalso. apply HV.
    unfold V. rewrite (o48_type n O). rewrite nth_overflow; auto. rewrite (o48_ilen n O). blia.
  - rewrite (idx_in _ i 0) by (rewrite (o48_ilen n O); blia). cbn [bind].
    assert (HVi : V n i = match nth i (n_index n) 0 with O => None | S p => nth p (n_children n) None end)
      by (unfold V; now rewrite (o48_type n O)).
    destruct (nth i (n_index n) 0) as [|p] eqn:E.
    + change (Nat.ltb 0 0) with false. cbn [bind].
      destruct (IH (i + 1) cs) as (cs' & E' & Hl' & H1 & H2); auto; [blia|].
      exists cs'. split; [exact E'|]. split; [auto|]. split.
      * intros b Hb HV. destruct (Nat.eq_dec b i) as [->|]; [congruence|]. apply H1; auto. blia.
      * intros b [Hb|HV]; apply H2; auto. left; blia.
    + change (Nat.ltb 0 (S p)) with true. cbn iota. replace (S p - 1) with p by blia.
      destruct (o48_used n O i p E) as (Hp & Hnn & _).
      rewrite (idx_in _ p None) by (rewrite (o48_clen n O); auto). cbn [bind].
      unfold upd. rewrite Hl, (proj2 (Nat.ltb_lt i 256)) by blia. cbn [bind].
      destruct (IH (i + 1) (set_nth cs i (nth p (n_children n) None))) as (cs' & E' & Hl' & H1 & H2);
        [now rewrite set_nth_length|blia|].
      exists cs'. split; [exact E'|]. split; [auto|]. split.
      * intros b Hb HV. destruct (Nat.eq_dec b i) as [->|]; [|apply H1; auto; blia].
        rewrite H2 by (left; blia). rewrite nth_set_nth, Nat.eqb_refl, Hl, (proj2 (Nat.ltb_lt i 256)) by blia.
        cbn [andb]. congruence.
      * intros b Hb. rewrite H2 by (destruct Hb; [left; blia|right; auto]).
        rewrite nth_set_nth. destruct (Nat.eqb_spec i b); [|auto]. subst b. destruct Hb; [blia|congruence].
Qed.

Lemma grow48_spec n b c : layout_ok n -> n_type n = Node48 -> nchild n = 48 -> b < 256 -> V n b = None ->
  exists n', growAndInsert n b c = Ok n' /\ layout_ok n' /\ n_type n' = Node256 /\ hdr n' = hdr n /\
    (forall b', V n' b' = if Nat.eqb b' b then Some c else V n b').
Proof.
  intros LO Et NC Hb HV. pose proof LO as (Hn & Hc & L). rewrite Et in *.
  unfold growAndInsert. rewrite Et. unfold grow48.
  destruct (spread48_spec n L 256 0 (n_children newNode256)) as (cs & E & Hl & H1 & H2); auto.
  rewrite E. cbn [bind]. set (m := copyNode _ n).
  assert (VE : forall b', V m b' = V n b').
  { intros b'. unfold V at 1. change (n_type m) with Node256. cbn iota. change (n_children m) with cs.
    destruct (V n b') as [p|] eqn:EV.
    - rewrite H1 by (try blia; congruence). auto.
    - rewrite H2 by auto. change (n_children newNode256) with (repeat (@None ptr) 256).
      destruct (Nat.lt_ge_cases b' 256); [apply nth_repeat|apply nth_overflow; now rewrite repeat_length]. }
  assert (NCm : nchild m = 48) by (rewrite <- NC; unfold nchild; apply cnt_ext; intros; now rewrite VE).
  assert (LM : layout_ok m).
  { split; [|split].
    - rewrite NCm. change (n_num m) with (n_num n). rewrite Hn, NC. reflexivity.
    - rewrite NCm. cbn. blia.
    - exact Hl. }
  destruct (insertChild_spec m b c) as (n' & E' & L' & T & H & HV'); auto.
  - rewrite NCm. cbn. blia.
  - rewrite VE. auto.
  - exists n'. split; [exact E'|]. split; [exact L'|]. split; [exact T|].
    split; [rewrite H; apply hdr_copyNode|]. intros b'. rewrite HV', VE. reflexivity.
Qed.

Definition grown (t : ntype) : ntype := match t with Node4 => Node16 | Node16 => Node48 | _ => Node256 end.

Lemma isFull_spec n : layout_ok n -> nchild n < 256 ->
  isFull n = Ok (Nat.eqb (nchild n) (cap (n_type n)) && negb (ntype_eqb (n_type n) Node256)).
Proof.
  intros (Hn & Hc & L) Hlt. unfold isFull. rewrite Hn, Nat.mod_small by auto.
  destruct (n_type n); cbn [cap ntype_eqb negb]; rewrite ?andb_true_r, ?andb_false_r; auto. contradiction.
Qed.

Lemma growAndInsert_spec n b c : layout_ok n -> n_type n <> Node256 -> nchild n = cap (n_type n) ->
  b < 256 -> V n b = None ->
  exists n', growAndInsert n b c = Ok n' /\ layout_ok n' /\ n_type n' = grown (n_type n) /\ hdr n' = hdr n /\
    (forall b', V n' b' = if Nat.eqb b' b then Some c else V n b').
Proof.
  intros L Ht NC Hb HV. destruct (n_type n) eqn:Et; cbn [cap grown] in *.
  - now apply grow4_spec.
  - now apply grow16_spec.
  - now apply grow48_spec.
  - congruence.
  - destruct L as (_ & _ & L). rewrite Et in L. contradiction.
Qed.
