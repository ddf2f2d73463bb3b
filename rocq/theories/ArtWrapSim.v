(** * ArtWrapSim: executions in which no operation takes 2^62 steps of all goroutines are, but
    for the width of the version words, executions of ArtFine.v. *)
From Verif Require Import Base BitsModel VecModel ArtNode ArtModel ArtSpec ArtConc ArtConcStep ArtFine ArtFineProofs ArtWrap ArtWrapProofs.

(** ** Where the version words are *)
Definition wf (f : frame) : frame := mkF (f_depth f) (f_par f) (w64 (f_pv f)) (f_loc f) (f_cur f).
Definition wpc (p : pc) : pc :=
  match p with
  | PIdle => PIdle
  | PCrash o => PCrash o
  | PRet o r => PRet o r
  | PStart o => PStart o
  | PRoot o r => PRoot o r
  | PDum o w => PDum o (w64 w)
  | PLock o f => PLock o (wf f)
  | PPar o f v => PPar o (wf f) (w64 v)
  | PRead0 o f v => PRead0 o (wf f) (w64 v)
  | PRead1 o f v => PRead1 o (wf f) (w64 v)
  | PRead2 o f v d => PRead2 o (wf f) (w64 v) d
  | PMiss o f v => PMiss o (wf f) (w64 v)
  | PNext o f v d next slot pos => PNext o (wf f) (w64 v) d next slot pos
  | IMis o f v => IMis o (wf f) (w64 v)
  | IMis1 o f v => IMis1 o (wf f) (w64 v)
  | FChk o f v got => FChk o (wf f) (w64 v) got
  | FPar o f v got => FPar o (wf f) (w64 v) got
  | FRd o f v x vx => FRd o (wf f) (w64 v) x (w64 vx)
  | FVal o f v x vx next => FVal o (wf f) (w64 v) x (w64 vx) next
  | FLeaf o f v x vx l => FLeaf o (wf f) (w64 v) x (w64 vx) l
  | FNext o f v x => FNext o (wf f) (w64 v) x
  | IMis2 o f v fk => IMis2 o (wf f) (w64 v) fk
  | IPl o f v q fk => IPl o (wf f) (w64 v) q fk
  | IDep o f v => IDep o (wf f) (w64 v)
  | IFind o f v d => IFind o (wf f) (w64 v) d
  | IFull o f v d => IFull o (wf f) (w64 v) d
  | IPar o f v d np slot => IPar o (wf f) (w64 v) d np slot
  | DLeaf o f v l => DLeaf o (wf f) (w64 v) l
  | DCmp o f v => DCmp o (wf f) (w64 v)
  | DBug o f v => DBug o (wf f) (w64 v)
  | DShr o f v d pos => DShr o (wf f) (w64 v) d pos
  | LPar o f v mu => LPar o (wf f) (w64 v) mu
  | LCur2 o f v mu => LCur2 o (wf f) (w64 v) mu
  | LCur1 o f v mu => LCur1 o (wf f) (w64 v) mu
  | LChk o f v mu => LChk o (wf f) (w64 v) mu
  | PWrite o f v mu => PWrite o (wf f) (w64 v) mu
  | CWait o f v mu i c => CWait o (wf f) (w64 v) mu i c
  | CCas o f v mu i c vc => CCas o (wf f) (w64 v) mu i c (w64 vc)
  | CWrite o f v mu i c => CWrite o (wf f) (w64 v) mu i c
  | PUnlock o us d => PUnlock o us d
  end.

(** The nodes whose versions a goroutine remembers. *)
Definition two_of (f : frame) (v : N) : list (nat * N) := [(f_par f, f_pv f); (f_cur f, v)].
Definition vers (p : pc) : list (nat * N) :=
  match p with
  | PIdle | PCrash _ | PRet _ _ | PStart _ | PRoot _ _ | PUnlock _ _ _ => []
  | PDum _ w => [(0, w)]
  | PLock _ f => [(f_par f, f_pv f)]
  | FRd _ f v x vx | FVal _ f v x vx _ | FLeaf _ f v x vx _ => (x, vx) :: two_of f v
  | CCas _ f v _ _ c vc => (c, vc) :: two_of f v
  | PPar _ f v | PRead0 _ f v | PRead1 _ f v | PRead2 _ f v _ | PMiss _ f v | PNext _ f v _ _ _ _
  | IMis _ f v | IMis1 _ f v | FChk _ f v _ | FPar _ f v _ | FNext _ f v _ | IMis2 _ f v _ | IPl _ f v _ _
  | IDep _ f v | IFind _ f v _ | IFull _ f v _ | IPar _ f v _ _ _ | DLeaf _ f v _ | DCmp _ f v | DBug _ f v
  | DShr _ f v _ _ | LPar _ f v _ | LCur2 _ f v _ | LCur1 _ f v _ | LChk _ f v _ | PWrite _ f v _
  | CWait _ f v _ _ _ | CWrite _ f v _ _ _ => two_of f v
  end.

(** ** Reads *)
Inductive rdr (P : pc -> Prop) : rd -> rd -> Prop :=
  | rdr_done p q : q = wpc p -> P p -> rdr P (RDone p) (RDone q)
  | rdr_num k k' : (forall x, rdr P (k x) (k' x)) -> rdr P (RNum k) (RNum k')
  | rdr_plen k k' : (forall x, rdr P (k x) (k' x)) -> rdr P (RPlen k) (RPlen k')
  | rdr_word k k' : (forall x, rdr P (k x) (k' x)) -> rdr P (RWord k) (RWord k')
  | rdr_leaf k k' : (forall x, rdr P (k x) (k' x)) -> rdr P (RLeaf k) (RLeaf k')
  | rdr_pre i k k' : (forall x, rdr P (k x) (k' x)) -> rdr P (RPre i k) (RPre i k')
  | rdr_key i k k' : (forall x, rdr P (k x) (k' x)) -> rdr P (RKey i k) (RKey i k')
  | rdr_child i k k' : (forall x, rdr P (k x) (k' x)) -> rdr P (RChild i k) (RChild i k')
  | rdr_idx i k k' : (forall x, rdr P (k x) (k' x)) -> rdr P (RIdx i k) (RIdx i k').

Section Reads.
Context (P : pc -> Prop) (o : op) (PC : P (PCrash o)).
Lemma orc_rdr {A} (x : res A) k k' : (forall a, rdr P (k a) (k' a)) -> rdr P (orc o x k) (orc o x k').
Proof. intros K. destruct x; cbn [orc]; auto; now apply rdr_done. Qed.
Lemma find_rdr b k k' t : (forall x, rdr P (k x) (k' x)) -> rdr P (find_rd o b k t) (find_rd o b k' t).
Proof.
  intros K. destruct t; cbn [find_rd]; auto.
  - enough (X : forall n i, rdr P (find4_rd o b k n i) (find4_rd o b k' n i)) by apply X. induction n as [|n IH]; intros i; cbn [find4_rd]; [now apply rdr_done|].
    apply rdr_num. intros x. destruct (Nat.ltb i x); auto. apply rdr_key. intros y. apply orc_rdr. intros z. destruct (Nat.eqb z b); auto.
    apply rdr_child. intros c. apply orc_rdr. auto.
  - enough (X : forall n i, rdr P (find16_rd o b k n i) (find16_rd o b k' n i)) by apply X. induction n as [|n IH]; intros i; cbn [find16_rd]; auto.
    apply rdr_key. intros y. apply orc_rdr. intros z. destruct (Nat.eqb z b); auto.
    apply rdr_num. intros x. destruct (Nat.ltb i x); auto. apply rdr_child. intros c. apply orc_rdr. auto.
  - apply rdr_idx. intros x. apply orc_rdr. intros ix. destruct (Nat.ltb 0 ix); auto. apply rdr_child. intros c. apply orc_rdr. auto.
  - apply rdr_child. intros c. apply orc_rdr. auto.
Qed.
Lemma first_rdr k k' t : (forall x, rdr P (k x) (k' x)) -> rdr P (first_rd o k t) (first_rd o k' t).
Proof.
  intros K. destruct t; cbn [first_rd]; try (now apply rdr_done); try (apply rdr_child; intros c; apply orc_rdr; auto; fail).
  - enough (X : forall n i, rdr P (first48_rd o k n i) (first48_rd o k' n i)) by apply X. induction n as [|n IH]; intros i; cbn [first48_rd]; [now apply rdr_done|].
    apply rdr_idx. intros x. apply orc_rdr. intros ix. destruct (Nat.eqb ix 0); auto. apply rdr_child. intros c. apply orc_rdr. auto.
  - enough (X : forall n i, rdr P (first256_rd o k n i) (first256_rd o k' n i)) by apply X. induction n as [|n IH]; intros i; cbn [first256_rd]; [now apply rdr_done|].
    apply rdr_child. intros c. apply orc_rdr. intros [c'|]; auto.
Qed.
Lemma miss_rdr key k k' : (forall x, rdr P (k x) (k' x)) -> forall fuel i, rdr P (miss_rd o key k fuel i) (miss_rd o key k' fuel i).
Proof.
  intros K. induction fuel as [|fuel IH]; intros i; cbn [miss_rd]; auto.
  apply rdr_pre. intros x. apply orc_rdr. intros y. apply orc_rdr. intros z. destruct (Nat.eqb y z); auto.
Qed.
End Reads.

Lemma rprog_rdr t pt p : rdr (fun q => incl (vers q) (vers p)) (rprog t pt p) (rprog t pt (wpc p)).
Proof.
  assert (PC : forall l o, incl (vers (PCrash o)) l) by (intros l o x []).
  destruct p; cbn [rprog wpc wf f_depth f_par f_pv f_cur f_loc]; cbv zeta;
  repeat match goal with
    | |- rdr _ (RDone _) (RDone _) => apply rdr_done; [reflexivity|first [apply incl_refl|apply incl_tl, incl_refl|apply PC]]
    | |- rdr _ (RNum _) (RNum _) => apply rdr_num; intros ?
    | |- rdr _ (RPlen _) (RPlen _) => apply rdr_plen; intros ?
    | |- rdr _ (RWord _) (RWord _) => apply rdr_word; intros ?
    | |- rdr _ (RLeaf _) (RLeaf _) => apply rdr_leaf; intros ?
    | |- rdr _ (orc _ _ _) (orc _ _ _) => apply orc_rdr; [apply PC|intros ?]
    | |- rdr _ (find_rd _ _ _ _) (find_rd _ _ _ _) => apply find_rdr; [apply PC|intros ((? & ?) & ?)]
    | |- rdr _ (first_rd _ _ _) (first_rd _ _ _) => apply first_rdr; [apply PC|intros ?]
    | |- rdr _ (miss_rd _ _ _ _ _) (miss_rd _ _ _ _ _) => apply miss_rdr; [apply PC|intros ?]
    | |- context [match ?x with _ => _ end] => destruct x
    end.
Qed.

Lemma rdr_step P n r r' : rdr P r r' -> (forall q, r <> RDone q) -> rdr P (rstep n r) (rstep n r').
Proof. intros R N. destruct R; cbn [rstep]; auto. exfalso. eapply N. reflexivity. Qed.
Lemma rdr_ndone P r r' : rdr P r r' -> (forall q, r <> RDone q) -> forall q, r' <> RDone q.
Proof. intros R N q. destruct R; try discriminate. exfalso. eapply N. reflexivity. Qed.

(** ** Memory *)
Lemma w64_idem x : w64 (w64 x) = w64 x.
Proof. unfold w64. apply N.mod_mod. discriminate. Qed.
Lemma w64_plus x y : w64 (w64 x + y) = w64 (x + y).
Proof. unfold w64. apply N.add_mod_idemp_l. discriminate. Qed.
Lemma wrap_nth m a : nth_error (m_cells (wrap m)) a = option_map wrap_cell (nth_error (m_cells m) a).
Proof. cbn [wrap m_cells]. apply nth_error_map. Qed.
Lemma wrap_node m a : get_node (wrap m) a = get_node m a.
Proof. unfold get_node, idx. rewrite wrap_nth. now destruct (nth_error (m_cells m) a). Qed.
Definition rmap {A B} (g : A -> B) (r : res A) : res B := match r with Ok a => Ok (g a) | Panic => Panic | Hang => Hang end.
Lemma wrap_ver m a : get_ver (wrap m) a = rmap w64 (get_ver m a).
Proof. unfold get_ver, idx. rewrite wrap_nth. now destruct (nth_error (m_cells m) a). Qed.
Lemma map_set_nth {A B} (g : A -> B) x : forall l i, map g (set_nth l i x) = set_nth (map g l) i (g x).
Proof. induction l as [|y l IH]; intros [|i]; cbn; auto. now rewrite IH. Qed.
Lemma wrap_put m a n : put_node (wrap m) a n = rmap wrap (put_node m a n).
Proof.
  unfold put_node, idx. rewrite wrap_nth. destruct (nth_error (m_cells m) a) as [c|]; cbn; [|reflexivity].
  unfold wrap. cbn [m_cells m_root]. now rewrite map_set_nth.
Qed.
Lemma wrap_store m l p : store (wrap m) l p = rmap wrap (store m l p).
Proof.
  destruct l as [|a i]; cbn [store]; [reflexivity|]. rewrite wrap_node. destruct (get_node m a) as [n| |]; cbn; auto.
  destruct (upd (n_children n) i (Some p)) as [cs| |]; cbn; auto. apply wrap_put.
Qed.
Lemma wrap_place m l nn : place (wrap m) l nn = rmap wrap (place m l nn).
Proof.
  unfold place, alloc. rewrite <- wrap_store. cbn [wrap m_cells m_root]. rewrite map_length. f_equal.
  unfold wrap. cbn [m_cells m_root]. now rewrite map_app.
Qed.
Lemma wrap_wrap m : wrap (wrap m) = wrap m.
Proof.
  unfold wrap. cbn [m_cells m_root]. f_equal. rewrite map_map. apply map_ext. intros c. unfold wrap_cell. cbn [c_ver c_node]. now rewrite w64_idem.
Qed.
Lemma wrap_set m a v v' : w64 v = w64 v' -> wrap (set_ver (wrap m) a v') = wrap (set_ver m a v).
Proof.
  intros E. unfold set_ver. rewrite wrap_nth. destruct (nth_error (m_cells m) a) as [c|]; cbn [option_map]; [|apply wrap_wrap].
  unfold wrap. cbn [m_cells m_root]. f_equal. rewrite !map_set_nth. f_equal.
  - rewrite map_map. apply map_ext. intros x. unfold wrap_cell. cbn [c_ver c_node]. now rewrite w64_idem.
  - unfold wrap_cell. cbn [c_ver c_node]. now rewrite E.
Qed.

(** ** Versions *)
Definition near (B : N) (m : mem) (l : list (nat * N)) : Prop :=
  forall a v, In (a, v) l -> exists w, get_ver m a = Ok w /\ (v <= w <= v + B)%N.
Definition grow (m m' : mem) : Prop := forall a w, get_ver m a = Ok w -> exists w', get_ver m' a = Ok w' /\ (w <= w' <= w + 3)%N.

Lemma near_eqb B m l a v w : (B < two64)%N -> near B m l -> In (a, v) l -> get_ver m a = Ok w -> N.eqb (w64 v) (w64 w) = N.eqb v w.
Proof.
  intros HB NR I G. destruct (NR a v I) as (w' & G' & LE). rewrite G in G'. injection G' as <-.
  destruct (N.eqb_spec v w) as [->|NE]; [apply N.eqb_refl|]. apply N.eqb_neq. intros E. apply NE.
  unfold w64 in E. assert (T : two64 <> 0%N) by discriminate. pose proof (N.div_mod v two64 T). pose proof (N.div_mod w two64 T).
  assert (L : (v / two64 <= w / two64)%N) by (apply N.div_le_mono; [exact T|lia]). rewrite E in H.
  destruct (N.eq_dec (v / two64) (w / two64)) as [E2|N2]; [rewrite E2 in H; congruence|].
  assert (G2 : (two64 * (v / two64 + 1) <= two64 * (w / two64))%N) by (apply N.mul_le_mono_l; lia).
  rewrite N.mul_add_distr_l, N.mul_1_r in G2. clear - H H0 G2 LE HB. 
  revert H H0 G2 HB. generalize (two64 * (v / two64))%N (two64 * (w / two64))%N (w mod two64)%N two64. intros; lia.
Qed.

(** ** The steps shared with ArtConc.v *)
Definition srel (m : mem) (l : list (nat * N)) (x y : sres) : Prop :=
  match x, y with
  | SBlock, SBlock => True
  | SGo m' p', SGo m2 p2 => wrap m2 = wrap m' /\ p2 = wpc p' /\ forall a v, In (a, v) (vers p') -> In (a, v) l \/ get_ver m a = Ok v
  | _, _ => False
  end.

Lemma low_bits w : locked (w64 w) = locked w /\ obsolete (w64 w) = obsolete w.
Proof. unfold locked, obsolete, w64. change two64 with (2 ^ 64)%N. split; apply N.mod_pow2_bits_low; lia. Qed.

Section Step.
Context (m : mem) (B : N) (l : list (nat * N)) (HB : (B < two64)%N) (NR : near B m l) (o : op).

Lemma go_rel p q : q = wpc p -> (forall a v, In (a, v) (vers p) -> In (a, v) l \/ get_ver m a = Ok v) -> srel m l (go m p) (go (wrap m) q).
Proof. intros -> V. cbn. split; [apply wrap_wrap|auto]. Qed.
Lemma crash_rel : srel m l (crash m o) (crash (wrap m) o).
Proof. cbn. split; [apply wrap_wrap|]. split; auto. intros a v []. Qed.
Lemma lift_rel {A A'} (x : res A) (y : res A') g k k' : y = rmap g x -> (forall a, x = Ok a -> srel m l (k a) (k' (g a))) -> srel m l (lift m o x k) (lift (wrap m) o y k').
Proof. intros -> K. destruct x; cbn [lift rmap]; auto using crash_rel. Qed.
Lemma lift_same {A} (x y : res A) k k' : y = x -> (forall a, x = Ok a -> srel m l (k a) (k' a)) -> srel m l (lift m o x k) (lift (wrap m) o y k').
Proof. intros -> K. destruct x; cbn [lift]; auto using crash_rel. Qed.
Lemma rlock_rel a ok ok' bad bad' : (forall w, get_ver m a = Ok w -> ok' (w64 w) = wpc (ok w)) -> bad' = wpc bad ->
  (forall w, get_ver m a = Ok w -> forall x v, In (x, v) (vers (ok w)) -> In (x, v) l \/ get_ver m x = Ok v) ->
  (forall x v, In (x, v) (vers bad) -> In (x, v) l \/ get_ver m x = Ok v) ->
  srel m l (rlock m o a ok bad) (rlock (wrap m) o a ok' bad').
Proof.
  intros K1 K2 V1 V2. unfold rlock. eapply lift_rel; [apply wrap_ver|]. intros w G. destruct (low_bits w) as (-> & ->).
  destruct (locked w); [exact Logic.I|]. destruct (obsolete w); apply go_rel; auto. eauto.
Qed.
Lemma vcheck_rel a v ok ok' bad bad' : In (a, v) l -> ok' = wpc ok -> bad' = wpc bad ->
  (forall x v, In (x, v) (vers ok) -> In (x, v) l \/ get_ver m x = Ok v) ->
  (forall x v, In (x, v) (vers bad) -> In (x, v) l \/ get_ver m x = Ok v) ->
  srel m l (vcheck m o a v ok bad) (vcheck (wrap m) o a (w64 v) ok' bad').
Proof.
  intros I K1 K2 V1 V2. unfold vcheck. eapply lift_rel; [apply wrap_ver|]. intros w G. cbv beta. rewrite (near_eqb B m l a v w HB NR I G).
  destruct (N.eqb v w); apply go_rel; auto.
Qed.
Lemma vcas_rel a v ok ok' bad bad' : In (a, v) l -> ok' = wpc ok -> bad' = wpc bad ->
  (forall x v, In (x, v) (vers ok) -> In (x, v) l \/ get_ver m x = Ok v) ->
  (forall x v, In (x, v) (vers bad) -> In (x, v) l \/ get_ver m x = Ok v) ->
  srel m l (vcas m o a v ok bad) (vcas (wrap m) o a (w64 v) ok' bad').
Proof.
  intros I K1 K2 V1 V2. unfold vcas. eapply lift_rel; [apply wrap_ver|]. intros w G. cbv beta.
  rewrite (N.eqb_sym (w64 w)), (near_eqb B m l a v w HB NR I G), (N.eqb_sym v).
  destruct (N.eqb w v); [|apply go_rel; auto]. cbn. split; [|auto]. apply wrap_set. symmetry. apply w64_plus.
Qed.
Lemma vunlock_rel a b p p' : p' = wpc p -> (forall x v, In (x, v) (vers p) -> In (x, v) l \/ get_ver m x = Ok v) ->
  srel m l (vunlock m o a b p) (vunlock (wrap m) o a b p').
Proof.
  intros K V. unfold vunlock. eapply lift_rel; [apply wrap_ver|]. intros w G. cbn. split; [|auto]. apply wrap_set. symmetry. apply w64_plus.
Qed.
Lemma dum_rel a k k' : (forall w, k' (w64 w) = wpc (k w)) ->
  (forall w, get_ver m a = Ok w -> forall x v, In (x, v) (vers (k w)) -> In (x, v) l \/ get_ver m x = Ok v) ->
  srel m l (lift m o (get_ver m a) (fun w => if locked w then SBlock else go m (k w)))
    (lift (wrap m) o (get_ver (wrap m) a) (fun w => if locked w then SBlock else go (wrap m) (k' w))).
Proof.
  intros K V. eapply lift_rel; [apply wrap_ver|]. intros w G. cbv beta. destruct (low_bits w) as (-> & _).
  destruct (locked w); [exact Logic.I|]. apply go_rel; auto. now apply V.
Qed.
Lemma same_rel a v k k' bad bad' : In (a, v) l -> bad' = wpc bad ->
  (forall x v, In (x, v) (vers bad) -> In (x, v) l \/ get_ver m x = Ok v) ->
  (get_ver m a = Ok v -> srel m l k k') ->
  srel m l (lift m o (get_ver m a) (fun w => if negb (N.eqb v w) then go m bad else k))
    (lift (wrap m) o (get_ver (wrap m) a) (fun w => if negb (N.eqb (w64 v) w) then go (wrap m) bad' else k')).
Proof.
  intros I K V R. eapply lift_rel; [apply wrap_ver|]. intros w G. cbv beta. rewrite (near_eqb B m l a v w HB NR I G).
  destruct (N.eqb_spec v w) as [->|NE]; cbn [negb]; auto. apply go_rel; auto.
Qed.
End Step.

Lemma tstep_rel B first nd m p : (B < two64)%N -> near B m (vers p) -> reads p = None ->
  (forall o f v mu, p <> PWrite o f v mu) -> (forall o f v mu i c, p <> CWrite o f v mu i c) ->
  srel m (vers p) (tstep first nd m p) (tstep first nd (wrap m) (wpc p)).
Proof.
  intros HB NR RD NW NC.
  assert (RT : forall o a v, In (a, v) (vers (retry o)) -> In (a, v) (vers p) \/ get_ver m a = Ok v) by (intros ? ? ? []).
  destruct p; try discriminate RD; try (exfalso; eapply NW; reflexivity); try (exfalso; eapply NC; reflexivity);
    cbn [tstep wpc wf f_depth f_par f_pv f_cur f_loc]; try exact Logic.I.
  all: try (apply (vcheck_rel m B _ HB NR); [cbn; auto|reflexivity|reflexivity|intros; left; cbn in *; tauto|intros; left; cbn in *; tauto]; fail).
  all: try (apply (vcas_rel m B _ HB NR); [cbn; auto|reflexivity|reflexivity|intros; left; cbn in *; tauto|intros; left; cbn in *; tauto]; fail).
  - (* PStart *) destruct first.
    + cbn [wrap m_root]. destruct (m_root m); [apply go_rel; [reflexivity|intros ? ? []]|apply crash_rel].
    + apply (dum_rel m _ o 0 (fun w => PDum o w)); [reflexivity|]. intros w G x v [X|[]]. injection X as <- <-. now right.
  - (* PRoot *) apply (dum_rel m _ o 0 (fun w => PLock o (mkF 0 0 w LRoot r))); [reflexivity|]. intros w G x v [X|[]]. injection X as <- <-. now right.
  - (* PDum *) cbn [wrap m_root]. destruct (m_root m); [apply go_rel; [reflexivity|intros; left; assumption]|apply crash_rel].
  - (* PLock *) apply rlock_rel; [intros; destruct o; reflexivity|reflexivity| |apply RT].
    intros w G x v X. assert (In (x, v) (two_of f w)) by (destruct o; exact X). destruct H as [H|[H|[]]]; injection H as <- <-; [left; now left|now right].
  - (* PNext *) apply (same_rel m B _ HB NR); [cbn; auto|reflexivity|apply RT|]. intros G.
    assert (PL : forall a, srel m (vers (PNext o f v d next slot pos)) (go m (PLock o (mkF (d + 1) (f_cur f) v (LSlot (f_cur f) slot) a)))
             (go (wrap m) (PLock o (mkF (d + 1) (f_cur f) (w64 v) (LSlot (f_cur f) slot) a)))).
    { intros a. apply go_rel; [reflexivity|]. intros x w [X|[]]. injection X as <- <-. now right. }
    destruct o, next as [[a|lf]|]; auto; try (apply go_rel; [reflexivity|intros; left; cbn in *; tauto]).
    + apply lift_same; [reflexivity|]. intros [|] _; [apply lift_same; [reflexivity|]; intros y _|]; (apply go_rel; [reflexivity|intros; left; cbn in *; tauto]).
    + apply lift_same; [reflexivity|]. intros [|] _; (apply go_rel; [reflexivity|intros; left; cbn in *; tauto]).
  - (* FPar *) apply (vcheck_rel m B _ HB NR); [cbn; auto|destruct got; reflexivity|reflexivity| |apply RT].
    intros x w X. left. destruct got; cbn in *; tauto.
  - (* FVal *) apply (same_rel m B _ HB NR); [cbn; auto|reflexivity|intros; left; cbn in *; tauto|]. intros G.
    destruct next as [[a|lf]|]; [| |apply crash_rel]; (apply go_rel; [reflexivity|intros; left; cbn in *; tauto]).
  - (* FLeaf *) apply (same_rel m B _ HB NR); [cbn; auto|reflexivity|intros; left; cbn in *; tauto|]. intros G.
    apply lift_same; [reflexivity|]. intros k _. apply go_rel; [reflexivity|intros; left; cbn in *; tauto].
  - (* FNext *) apply rlock_rel; [reflexivity|reflexivity| |intros; left; cbn in *; tauto].
    intros w G x0 u X. cbn in X. destruct X as [X|X]; [injection X as <- <-; now right|left; cbn; tauto].
  - (* IPar *) apply (vcheck_rel m B _ HB NR); [cbn; auto|destruct np; reflexivity|reflexivity| |apply RT].
    intros x w X. left. destruct np; cbn in *; tauto.
  - (* DLeaf *) apply (same_rel m B _ HB NR); [cbn; auto|reflexivity|apply RT|]. intros G.
    apply lift_same; [reflexivity|]. intros [|] _; (apply go_rel; [reflexivity|intros; left; cbn in *; tauto]).
  - (* LCur1 *) apply (vcas_rel m B _ HB NR); [cbn; auto|destruct (checks mu); reflexivity|reflexivity| |apply RT].
    intros x w X. left. destruct (checks mu); cbn in *; tauto.
  - (* CWait *) apply rlock_rel; [reflexivity|reflexivity| |intros ? ? []].
    intros w G x u X. cbn in X. destruct X as [X|X]; [injection X as <- <-; now right|left; cbn; tauto].
  - (* PUnlock *) destruct us as [|(a, b) us].
    + apply go_rel; [destruct done; reflexivity|intros x w X; destruct done; destruct X].
    + apply vunlock_rel; [reflexivity|intros ? ? []].
Qed.

(** ** How fast versions grow *)
Lemma grow_refl m : grow m m.
Proof. intros a w G. exists w. split; [exact G|lia]. Qed.
Lemma grow_same m m' : (forall a w, get_ver m a = Ok w -> get_ver m' a = Ok w) -> grow m m'.
Proof. intros K a w G. exists w. split; [auto|lia]. Qed.
Lemma ver_nth m a w : get_ver m a = Ok w <-> exists c, nth_error (m_cells m) a = Some c /\ c_ver c = w.
Proof.
  unfold get_ver, idx. destruct (nth_error (m_cells m) a) as [c|]; cbn.
  - split; [intros X; injection X as <-; eauto|]. intros (c' & X & <-). now injection X as <-.
  - split; [discriminate|]. intros (c' & X & _). discriminate.
Qed.
Lemma nth_set_lt {A} (x : A) : forall l i j c, nth_error l j = Some c -> exists d, nth_error (set_nth l i x) j = Some d /\ (d = c \/ i = j /\ d = x).
Proof.
  induction l as [|y l IH]; intros [|i] [|j] c; cbn; try discriminate; eauto.
  intros X. destruct (IH i j c X) as (d & Y & [E|(E & F)]); eauto. exists d. split; auto.
Qed.
Lemma grow_set_ver m a w u : get_ver m a = Ok w -> (w <= u <= w + 3)%N -> grow m (set_ver m a u).
Proof.
  intros G LE b v H. apply ver_nth in H as (c & E & <-). apply ver_nth in G as (c' & E' & <-). unfold set_ver. rewrite E'.
  destruct (nth_set_lt (mkCell u (c_node c')) (m_cells m) a b c E) as (d & X & [->|(-> & ->)]).
  - exists (c_ver c). split; [|lia]. apply ver_nth. cbn [m_cells]. eauto.
  - rewrite E in E'. injection E' as <-. exists u. split; [|lia]. apply ver_nth. cbn [m_cells]. eauto.
Qed.
Lemma grow_put m a n m' : put_node m a n = Ok m' -> grow m m'.
Proof.
  unfold put_node, idx. destruct (nth_error (m_cells m) a) as [c|] eqn:E; cbn; [|discriminate]. intros X. injection X as <-.
  apply grow_same. intros b w G. apply ver_nth in G as (c' & E' & <-). apply ver_nth. cbn [m_cells].
  destruct (nth_set_lt (mkCell (c_ver c) n) (m_cells m) a b c' E') as (d & X & [->|(-> & ->)]); eauto.
  rewrite E in E'. injection E' as <-. eexists. split; [exact X|reflexivity].
Qed.
Lemma grow_store m l p m' : store m l p = Ok m' -> grow m m'.
Proof.
  destruct l as [|a i]; cbn [store].
  - intros X. injection X as <-. apply grow_same. auto.
  - destruct (get_node m a) as [n| |]; cbn; try discriminate. destruct (upd (n_children n) i (Some p)) as [cs| |]; cbn; try discriminate.
    apply grow_put.
Qed.
Lemma grow_place m l nn m' : place m l nn = Ok m' -> grow m m'.
Proof.
  unfold place, alloc. intros X. apply grow_store in X. intros a w G. apply X. apply ver_nth in G as (c & E & <-). apply ver_nth. cbn [m_cells].
  exists c. split; auto. rewrite nth_error_app1; [exact E|]. apply nth_error_Some. congruence.
Qed.

Lemma lift_grow {A} m o (r : res A) k m' p' : lift m o r k = SGo m' p' -> (forall a, r = Ok a -> k a = SGo m' p' -> grow m m') -> grow m m'.
Proof. intros H K. destruct r as [a| |]; cbn in H; [exact (K a eq_refl H)| |]; unfold crash in H; injection H as <- <-; apply grow_refl. Qed.
Lemma go_grow m p m' p' : go m p = SGo m' p' -> grow m m'.
Proof. intros H. unfold go in H. injection H as <- <-. apply grow_refl. Qed.
Lemma crash_grow m o m' p' : crash m o = SGo m' p' -> grow m m'.
Proof. intros H. unfold crash in H. injection H as <- <-. apply grow_refl. Qed.
Lemma vcas_grow m o a v ok bad m' p' : vcas m o a v ok bad = SGo m' p' -> grow m m'.
Proof.
  intros H. unfold vcas in H. eapply lift_grow; eauto. intros w G X. cbv beta in X. destruct (N.eqb w v) eqn:E; [|eapply go_grow; eauto].
  apply N.eqb_eq in E. subst v. injection X as <- <-. eapply grow_set_ver; eauto. lia.
Qed.
Lemma vunlock_grow m o a b p m' p' : vunlock m o a b p = SGo m' p' -> grow m m'.
Proof.
  intros H. unfold vunlock in H. eapply lift_grow; eauto. intros w G X. cbv beta in X. injection X as <- <-. eapply grow_set_ver; eauto.
  destruct b; lia.
Qed.
Lemma tstep_grow first nd m p m' p' : (forall o f v mu, p <> PWrite o f v mu) -> (forall o f v mu i c, p <> CWrite o f v mu i c) ->
  tstep first nd m p = SGo m' p' -> grow m m'.
Proof.
  intros NW NC H. destruct p; cbn [tstep] in H;
  repeat match type of H with
    | SBlock = _ => discriminate H
    | go _ _ = _ => exact (go_grow _ _ _ _ H)
    | crash _ _ = _ => exact (crash_grow _ _ _ _ H)
    | vcas _ _ _ _ _ _ = _ => exact (vcas_grow _ _ _ _ _ _ _ _ H)
    | vunlock _ _ _ _ _ = _ => exact (vunlock_grow _ _ _ _ _ _ _ H)
    | rlock _ _ _ _ _ = _ => unfold rlock in H
    | vcheck _ _ _ _ _ _ = _ => unfold vcheck in H
    | lift _ _ _ _ = _ => eapply lift_grow; [exact H|]; clear H; intros ? ? H; cbv beta in H
    | match ?x with _ => _ end = _ => destruct x
    end; try (exfalso; eapply NW; reflexivity); try (exfalso; eapply NC; reflexivity).
Qed.
Lemma tri_grow {A} p m (x : res A) k m' x' : tri p m x k = Some (m', x') -> (forall a, x = Ok a -> k a = Some (m', x') -> grow m m') -> grow m m'.
Proof. intros H K. destruct x as [a| |]; cbn in H; [exact (K a eq_refl H)| |]; injection H as <- <-; apply grow_refl. Qed.
Lemma same_grow m (x y : ft) m' : Some (m, x) = Some (m', y) -> grow m m'.
Proof. intros H. injection H as <- <-. apply grow_refl. Qed.
Lemma fgo_grow first m x m' x' : fgo first m x = Some (m', x') -> grow m m'.
Proof.
  intros H. destruct x as [p|p a r|p [|(a, w) ws] fn|l c p]; cbn [fgo] in H.
  - destruct (reads p) as [(a, v)|].
    + eapply tri_grow; eauto. cbv beta iota. intros n _ X. exact (same_grow _ _ _ _ X).
    + assert (T : (forall o f v mu, p <> PWrite o f v mu) -> (forall o f v mu i c, p <> CWrite o f v mu i c) ->
        match tstep first newNode4 m p with SGo m' p' => Some (m', TAt p') | SBlock => None end = Some (m', x') -> grow m m').
      { intros N1 N2 X. destruct (tstep first newNode4 m p) as [|m1 p1] eqn:E; [discriminate|]. injection X as <- <-. eapply tstep_grow; eauto. }
      destruct p; try (apply T; [discriminate|discriminate|exact H]).
      * eapply tri_grow; eauto. cbv beta iota. intros [(i, c)|] _ X; [exact (same_grow _ _ _ _ X)|].
        eapply tri_grow; eauto. cbv beta iota. intros (ws, fn) _ Y. exact (same_grow _ _ _ _ Y).
      * eapply tri_grow; eauto. cbv beta iota. intros (ws, fn) _ Y. exact (same_grow _ _ _ _ Y).
  - destruct r; try exact (same_grow _ _ _ _ H);
      (eapply tri_grow; [exact H|]; cbv beta iota; intros n _ X; exact (same_grow _ _ _ _ X)).
  - destruct fn as [|l q|l nn|c l].
    + exact (same_grow _ _ _ _ H).
    + eapply tri_grow; eauto. cbv beta iota. intros k E X. injection X as <- <-. eapply grow_store; eauto.
    + eapply tri_grow; eauto. cbv beta iota. intros k E X. injection X as <- <-. eapply grow_place; eauto.
    + eapply tri_grow; eauto. cbv beta iota. intros w E X. injection X as <- <-. eapply grow_set_ver; eauto. lia.
  - eapply tri_grow; eauto. cbv beta iota. intros k E X. injection X as <- <-.
    destruct (get_node m a) as [n| |]; cbn in E; try discriminate. eapply grow_put; eauto.
  - eapply tri_grow; eauto. cbv beta iota. intros k E X. injection X as <- <-. eapply grow_store; eauto.
Qed.

(** ** One step of either machine *)
Definition xrel (x y : ft) : Prop :=
  match x, y with
  | TAt p, TAt q => q = wpc p
  | TRd p a r, TRd q b r' => q = wpc p /\ b = a /\ rdr (fun q => incl (vers q) (vers p)) r r'
  | TWr p ws fn, TWr q ws' fn' => q = wpc p /\ ws' = ws /\ fn' = fn
  | TSt l c p, TSt l' c' q => l' = l /\ c' = c /\ q = wpc p
  | _, _ => False
  end.
Definition xvers (x : ft) : list (nat * N) := match x with TAt p | TRd p _ _ | TWr p _ _ | TSt _ _ p => vers p end.
Definition orel (m : mem) (l : list (nat * N)) (x y : option (mem * ft)) : Prop :=
  match x, y with
  | None, None => True
  | Some (m', x'), Some (m2, x2) => wrap m2 = wrap m' /\ xrel x' x2 /\ forall a v, In (a, v) (xvers x') -> In (a, v) l \/ get_ver m a = Ok v
  | _, _ => False
  end.

Lemma op_wpc p : pc_op (wpc p) = pc_op p.
Proof. now destruct p. Qed.
Lemma crashed_rel m p : orel m (vers p) (Some (m, crashed p)) (Some (wrap m, crashed (wpc p))).
Proof.
  cbn. split; [apply wrap_wrap|]. unfold crashed. rewrite op_wpc. destruct (pc_op p); cbn; [|auto]. split; auto. intros a v [].
Qed.
Lemma tri_rel {A A'} m p (x : res A) (y : res A') g k k' : y = rmap g x -> (forall a, x = Ok a -> orel m (vers p) (k a) (k' (g a))) ->
  orel m (vers p) (tri p m x k) (tri (wpc p) (wrap m) y k').
Proof. intros -> K. destruct x; cbn [tri rmap]; auto using crashed_rel. Qed.
Lemma tri_same {A} m p (x y : res A) k k' : y = x -> (forall a, x = Ok a -> orel m (vers p) (k a) (k' a)) ->
  orel m (vers p) (tri p m x k) (tri (wpc p) (wrap m) y k').
Proof. intros -> K. destruct x; cbn [tri]; auto using crashed_rel. Qed.
Lemma reads_wpc p : option_map fst (reads (wpc p)) = option_map fst (reads p).
Proof. now destruct p. Qed.
Lemma ptype_wpc m p : ptype (wrap m) (wpc p) = ptype m p.
Proof. destruct p; try reflexivity; cbn [ptype wpc wf f_par]; now rewrite wrap_node. Qed.
Lemma wprog_wf m o f mu : wprog (wrap m) o (wf f) mu = wprog m o f mu.
Proof. unfold wprog. cbn [wf f_cur f_depth f_loc]. now rewrite wrap_node. Qed.
Lemma wprogc_wf m f i c : wprog_child (wrap m) (wf f) i c = wprog_child m f i c.
Proof. unfold wprog_child. cbn [wf f_cur f_depth f_loc]. now rewrite !wrap_node. Qed.
Lemma after_wpc p : after (wpc p) = wpc (after p).
Proof. now destruct p. Qed.
Lemma after_vers p x : In x (vers (after p)) -> In x (vers p).
Proof. destruct p; auto; intros []. Qed.

Lemma fgo_rel B first m x y : (B < two64)%N -> near B m (xvers x) -> xrel x y -> orel m (xvers x) (fgo first m x) (fgo first (wrap m) y).
Proof.
  intros HB NR R. destruct x as [p|p a r|p ws fn|l c p], y as [q|q a' r'|q ws' fn'|l' c' q]; cbn [xrel] in R; try contradiction; cbn [xvers] in *.
  - subst q. cbn [fgo]. pose proof (reads_wpc p) as RW. destruct (reads p) as [(a, v)|] eqn:RD.
    + destruct (reads (wpc p)) as [(a', v')|]; [|discriminate]. cbn in RW. injection RW as ->.
      apply tri_same; [apply wrap_node|]. intros n _. cbn [orel]. split; [apply wrap_wrap|]. cbn [xrel xvers]. split; [|now left]. split; [reflexivity|]. split; [reflexivity|].
      rewrite ptype_wpc. apply rprog_rdr.
    + destruct (reads (wpc p)) as [(a', v')|]; [discriminate|].
      assert (T : (forall o f v mu, p <> PWrite o f v mu) -> (forall o f v mu i c, p <> CWrite o f v mu i c) ->
        orel m (vers p) (match tstep first newNode4 m p with SGo m' p' => Some (m', TAt p') | SBlock => None end)
          (match tstep first newNode4 (wrap m) (wpc p) with SGo m' p' => Some (m', TAt p') | SBlock => None end)).
      { intros N1 N2. pose proof (tstep_rel B first newNode4 m p HB NR RD N1 N2) as X. destruct (tstep first newNode4 m p), (tstep first newNode4 (wrap m) (wpc p)); cbn in *; tauto. }
      destruct p; try (apply T; discriminate); clear T.
      * cbn [wpc]. eapply (tri_same m (PWrite o f v mu)); [cbn [wf f_cur]; now rewrite wrap_node|]. intros [(i, c)|] _.
        -- cbn [orel]. split; [apply wrap_wrap|]. split; [reflexivity|]. now left.
        -- eapply (tri_same m (PWrite o f v mu)); [apply wprog_wf|]. intros (ws, fn) _. cbn [orel]. split; [apply wrap_wrap|]. split; [cbn; auto|]. now left.
      * cbn [wpc]. eapply (tri_same m (CWrite o f v mu i c)); [apply wprogc_wf|]. intros (ws, fn) _. cbn [orel]. split; [apply wrap_wrap|]. split; [cbn; auto|]. now left.
  - destruct R as (-> & -> & R).
    assert (T : (forall p', r <> RDone p') -> orel m (vers p) (tri p m (get_node m a) (fun n => Some (m, TRd p a (rstep n r))))
              (tri (wpc p) (wrap m) (get_node (wrap m) a) (fun n => Some (wrap m, TRd (wpc p) a (rstep n r'))))).
    { intros ND. apply tri_same; [apply wrap_node|]. intros n _. cbn [orel]. split; [apply wrap_wrap|]. split; [|now left]. cbn [xrel]. split; [reflexivity|]. split; [reflexivity|].
      apply rdr_step; auto. }
    destruct R as [p' q' E I| | | | | | | |]; cbn [fgo]; try (apply T; discriminate).
    cbn [orel]. split; [apply wrap_wrap|]. split; [exact E|]. cbn [xvers]. auto.
  - destruct R as (-> & -> & ->). destruct ws as [|(a, w) ws]; cbn [fgo].
    + destruct fn as [|l q|l nn|c l].
      * cbn [orel]. split; [apply wrap_wrap|]. split; [apply after_wpc|]. cbn [xvers]. auto using after_vers.
      * eapply tri_rel; [apply wrap_store|]. intros k _. cbn [orel]. split; [apply wrap_wrap|]. split; [apply after_wpc|]. cbn [xvers]. auto using after_vers.
      * eapply tri_rel; [apply wrap_place|]. intros k _. cbn [orel]. split; [apply wrap_wrap|]. split; [apply after_wpc|]. cbn [xvers]. auto using after_vers.
      * eapply tri_rel; [apply wrap_ver|]. intros k _. cbn [orel]. split; [apply wrap_set; symmetry; apply w64_plus|]. split; [cbn [xrel]; auto using after_wpc|].
        cbn [xvers]. auto using after_vers.
    + eapply (tri_rel m p _ _ wrap).
      * rewrite wrap_node. destruct (get_node m a) as [n| |]; cbn; auto. apply wrap_put.
      * intros k _. cbn [orel]. split; [apply wrap_wrap|]. split; [cbn [xrel]; auto|]. now left.
  - destruct R as (-> & -> & ->). cbn [fgo]. eapply tri_rel; [apply wrap_store|]. intros k _. cbn [orel]. split; [apply wrap_wrap|]. split; [reflexivity|]. now left.
Qed.

(** ** Executions *)
Definition since (h : list ev) (t : nat) (h2 : list ev) : Prop :=
  exists h1 o, h = h1 ++ ECall t o :: h2 /\ forall x, ~ In (ERet t x) h2.
Definition fresh (h : list ev) (m : mem) (t : nat) (x : ft) : Prop :=
  x = TAt PIdle \/ exists h2, since h t h2 /\ near (3 * N.of_nat (length h2)) m (xvers x).
Definition sim (h : list ev) (s0 s : fsys) : Prop :=
  fs_mem s = wrap (fs_mem s0) /\ (forall t, xrel (fs_thr s0 t) (fs_thr s t)) /\ forall t, fresh h (fs_mem s0) t (fs_thr s0 t).

Lemma brisk_snoc h e : brisk (h ++ [e]) -> brisk h.
Proof. intros Br h1 t o h2 h3 E ND. apply (Br h1 t o h2 (h3 ++ [e])); auto. subst h. now rewrite <- !app_assoc; cbn; rewrite <- !app_assoc. Qed.
Lemma brisk_since h t h2 : brisk h -> since h t h2 -> (3 * N.of_nat (length h2) < two64)%N.
Proof.
  intros Br (h1 & o & -> & ND). assert (N.of_nat (length h2) < 2 ^ 62)%N by (apply (Br h1 t o h2 []); auto; now rewrite app_nil_r).
  change (2 ^ 62)%N with 4611686018427387904%N in *. unfold two64. lia.
Qed.
Lemma since_snoc h t h2 e : since h t h2 -> (forall x, e <> ERet t x) -> since (h ++ [e]) t (h2 ++ [e]).
Proof.
  intros (h1 & o & -> & ND) NE. exists h1, o. split; [now rewrite <- app_assoc|]. intros x I. apply in_app_or in I as [I|[I|[]]]; [exact (ND x I)|exact (NE x I)].
Qed.
Lemma near_grow B m m' l : near B m l -> grow m m' -> near (B + 3) m' l.
Proof.
  intros NR G a v I. destruct (NR a v I) as (w & E & L). destruct (G a w E) as (w' & E' & L'). exists w'. split; auto. lia.
Qed.
Lemma fresh_other h m m' t x e : fresh h m t x -> grow m m' -> (forall r, e <> ERet t r) -> fresh (h ++ [e]) m' t x.
Proof.
  intros [->|(h2 & S2 & NR)] G NE; [now left|]. right. exists (h2 ++ [e]). split; [now apply since_snoc|].
  replace (3 * N.of_nat (length (h2 ++ [e])))%N with (3 * N.of_nat (length h2) + 3)%N by (rewrite app_length; cbn [length]; lia).
  eapply near_grow; eauto.
Qed.
Lemma fupd_same th t x : fupd th t x t = x.
Proof. unfold fupd. now rewrite Nat.eqb_refl. Qed.
Lemma fupd_other th t x u : u <> t -> fupd th t x u = th u.
Proof. intros N. unfold fupd. now rewrite (proj2 (Nat.eqb_neq u t) N). Qed.

Lemma sim_step h s0 s t e m m' x x' : sim h s0 s -> grow (fs_mem s0) m -> wrap m = m' -> xrel x x' -> (forall u r, u <> t -> e <> ERet u r) ->
  fresh (h ++ [e]) m t x -> sim (h ++ [e]) (mkFS m (fupd (fs_thr s0) t x)) (mkFS m' (fupd (fs_thr s) t x')).
Proof.
  intros (M & X & F) G W R NE FR. split; [now rewrite <- W|]. cbn [fs_mem fs_thr]. split; intros u; (destruct (Nat.eq_dec u t) as [->|N]; [now rewrite !fupd_same|rewrite !fupd_other by auto]).
  - apply X.
  - eapply fresh_other; [apply F|exact G|]. intros r. now apply NE.
Qed.

Lemma call_fresh h m t o : fresh (h ++ [ECall t o]) m t (TAt (PStart o)).
Proof. right. exists []. split; [exists h, o; split; [reflexivity|intros x []]|]. intros a v []. Qed.

Lemma tau_sim h s0 s t first : brisk h -> sim h s0 s ->
  match fgo first (fs_mem s0) (fs_thr s0 t), wgo first (fs_mem s) (fs_thr s t) with
  | Some (m0, x0), Some (m1, x1) => sim (h ++ [ETau t]) (mkFS m0 (fupd (fs_thr s0) t x0)) (mkFS m1 (fupd (fs_thr s) t x1))
  | None, None => True
  | _, _ => False
  end.
Proof.
  intros Br SM. pose proof SM as (M & X & F). destruct (F t) as [I|(h2 & S2 & NR)].
  - specialize (X t). rewrite I in *. destruct (fs_thr s t); cbn in X; try contradiction. subst. cbn. exact Logic.I.
  - pose proof (fgo_rel _ first _ _ _ (brisk_since _ _ _ Br S2) NR (X t)) as R. unfold wgo. rewrite M.
    destruct (fgo first (fs_mem s0) (fs_thr s0 t)) as [(m0, x0)|] eqn:E0, (fgo first (wrap (fs_mem s0)) (fs_thr s t)) as [(m1, x1)|]; cbn [orel] in R; try contradiction; [|exact Logic.I].
    destruct R as (W & XR & V). pose proof (fgo_grow _ _ _ _ _ E0) as G. eapply sim_step; eauto; [discriminate|].
    right. exists (h2 ++ [ETau t]). split; [apply since_snoc; [exact S2|discriminate]|].
    replace (3 * N.of_nat (length (h2 ++ [ETau t])))%N with (3 * N.of_nat (length h2) + 3)%N by (rewrite app_length; cbn [length]; lia).
    intros a v I. destruct (V a v I) as [J|J].
    + exact (near_grow _ _ _ _ NR G a v J).
    + destruct (G a v J) as (w & E & L). exists w. split; auto. lia.
Qed.

Lemma xrel_idle x : xrel x (TAt PIdle) -> x = TAt PIdle.
Proof. destruct x as [p| | |]; cbn; try tauto. now destruct p. Qed.
Lemma xrel_ret x o r : xrel x (TAt (PRet o r)) -> x = TAt (PRet o r).
Proof. destruct x as [p| | |]; cbn; try tauto. destruct p; try discriminate. intros X; cbn in X; now injection X as <- <-. Qed.

Theorem sim_wexec h s : wexec h s -> brisk h -> exists s0, fexec h s0 /\ sim h s0 s.
Proof.
  induction 1 as [|h s e s' E IH ST]; intros Br.
  - exists finit. split; [constructor|]. split; [reflexivity|]. split; intros t; cbn; auto. now left.
  - pose proof (brisk_snoc _ _ Br) as Bh. destruct (IH Bh) as (s0 & E0 & SM). pose proof SM as (M & X & F).
    inversion ST as [t o I V|t o r I|t first m' x' G]; subst.
    + pose proof (X t) as Xt. rewrite I in Xt. apply xrel_idle in Xt.
      exists (mkFS (fs_mem s0) (fupd (fs_thr s0) t (TAt (PStart o)))). split; [econstructor; [exact E0|now constructor]|].
      eapply sim_step; eauto using grow_refl, call_fresh; [reflexivity|discriminate].
    + pose proof (X t) as Xt. rewrite I in Xt. apply xrel_ret in Xt.
      exists (mkFS (fs_mem s0) (fupd (fs_thr s0) t (TAt PIdle))). split; [econstructor; [exact E0|econstructor; eauto]|].
      eapply sim_step; eauto using grow_refl; [reflexivity|intros u r' N Y; injection Y as -> ->; now apply N|now left].
    + pose proof (tau_sim h s0 s t first Bh SM) as TS. rewrite G in TS. destruct (fgo first (fs_mem s0) (fs_thr s0 t)) as [(m0, x0)|] eqn:E1; [|contradiction].
      eexists. split; [econstructor; [exact E0|econstructor; exact E1]|exact TS].
Qed.

Theorem sim_fexec h s0 : fexec h s0 -> brisk h -> exists s, wexec h s /\ sim h s0 s.
Proof.
  induction 1 as [|h s0 e s0' E IH ST]; intros Br.
  - exists finit. split; [constructor|]. split; [reflexivity|]. split; intros t; cbn; auto. now left.
  - pose proof (brisk_snoc _ _ Br) as Bh. destruct (IH Bh) as (s & E0 & SM). pose proof SM as (M & X & F).
    inversion ST as [t o I V|t o r I|t first m' x' G]; subst.
    + pose proof (X t) as Xt. rewrite I in Xt. destruct (fs_thr s t) eqn:TS; cbn in Xt; try contradiction. subst.
      exists (mkFS (fs_mem s) (fupd (fs_thr s) t (TAt (PStart o)))). split; [econstructor; [exact E0|now constructor]|].
      eapply sim_step; eauto using grow_refl, call_fresh; [reflexivity|discriminate].
    + pose proof (X t) as Xt. rewrite I in Xt. destruct (fs_thr s t) eqn:TS; cbn in Xt; try contradiction. subst.
      exists (mkFS (fs_mem s) (fupd (fs_thr s) t (TAt PIdle))). split; [econstructor; [exact E0|econstructor; eauto]|].
      eapply sim_step; eauto using grow_refl; [reflexivity|intros u r' N Y; injection Y as -> ->; now apply N|now left].
    + pose proof (tau_sim h s0 s t first Bh SM) as TS. rewrite G in TS. destruct (wgo first (fs_mem s) (fs_thr s t)) as [(m0, x0)|] eqn:E1; [|contradiction].
      eexists. split; [econstructor; [exact E0|econstructor; exact E1]|exact TS].
Qed.
