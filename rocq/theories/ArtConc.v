(** * ArtConc: Get, Put and Delete run by any number of goroutines.

    /repo/art/art.go, lock.go and the pointer-following parts of node.go, as a small-step
    machine.  One step of the machine is one of
    - an atomic operation on a version word (load, compare-and-swap, add),
    - the load of t.root,
    - one group of plain field reads of one node, made between two such operations,
    - all the plain writes of one critical section (the unlocks are separate steps).

    Plain reads race with writers (the code is marked go:norace).  A group of reads made
    under version [v] of a node returns the node's contents when the version word still
    is [v] at the end of the group, and anything at all of the right array sizes
    otherwise ([sees]); this covers every torn or stale value, and ArtFine.v derives it
    from a machine that reads and writes single fields.

    Differences from the sequential model (ArtModel.v): versions are unbounded numbers,
    so the wrap-around of the 64-bit word after 2^62 lock operations is not modelled.
    Memory is sequentially consistent. *)
From Verif Require Import Base BitsModel VecModel ArtNode ArtModel ArtSpec.

(** The locals of one iteration of the loops in search, insert and remove. *)
Record frame := mkF {
  f_depth : nat; f_par : nat; f_pv : N;      (* depth, parent, parentVersion *)
  f_loc : loc; f_cur : nat                   (* nodeLoc, currNode *)
}.

(** The critical sections. *)
Inductive mut :=
  | MSplit (p : nat) (fk : bytes)            (* art.go:158 insertSplitPrefix *)
  | MLeaf                                    (* art.go:176 updatePrefixLeaf *)
  | MGrow (d : nat)                          (* art.go:197 growAndInsert *)
  | MIns (d : nat)                           (* art.go:209 insertChild *)
  | MExp (d : nat) (l : leaf) (slot : nat)   (* art.go:228 updateOrExpand *)
  | MCompress                                (* art.go:282 compressChild *)
  | MClear                                   (* art.go:296 prefixLeaf = nil *)
  | MShrink (d : nat)                        (* art.go:328 removeChildAndShrink *)
  | MRem (i : nat).                          (* art.go:341 removeChild *)

(** Does it lock the parent as well, and does it retire the current node? *)
Definition two (mu : mut) : bool :=
  match mu with MSplit _ _ | MGrow _ | MCompress | MShrink _ => true | _ => false end.
Definition retires (mu : mut) : bool :=
  match mu with MGrow _ | MCompress | MShrink _ => true | _ => false end.
(** Does it check the parent's version after locking the current node (art.go:172, 205)? *)
Definition checks (mu : mut) : bool :=
  match mu with MLeaf | MIns _ => true | _ => false end.

(** Where a goroutine is.  [v] is the version read from the current node. *)
Inductive pc :=
  | PIdle
  | PCrash (o : op)                                    (* panicked *)
  | PRet (o : op) (r : option bytes)                   (* about to return *)
  | PStart (o : op)                                    (* art.go:37, 47, 57: head of the retry loop *)
  | PRoot (o : op) (r : nat)                           (* t.root is loaded, the dummy's version is not *)
  | PDum (o : op) (pv : N)                             (* the other way round *)
  | PLock (o : op) (f : frame)                         (* art.go:75, 137, 251 rLock *)
  | PPar (o : op) (f : frame) (v : N)                  (* art.go:78, 254 parent.rUnlock *)
  | PRead0 (o : op) (f : frame) (v : N)                (* node.go:501 *)
  | PRead1 (o : op) (f : frame) (v : N)                (* node.go:504-514 *)
  | PRead2 (o : op) (f : frame) (v : N) (d : nat)      (* art.go:88-93; 264; 305 *)
  | PMiss (o : op) (f : frame) (v : N)                 (* art.go:84, 259, 269, 302 *)
  | PNext (o : op) (f : frame) (v : N) (d : nat) (next : option ptr) (slot pos : nat)
                                                       (* art.go:95, 183, 306 lockCheck *)
  (* insert *)
  | IMis (o : op) (f : frame) (v : N)                  (* node.go:611 *)
  | IMis1 (o : op) (f : frame) (v : N)                 (* node.go:612-619 *)
  | FChk (o : op) (f : frame) (v : N) (got : option bytes)   (* node.go:628 n.lockCheck *)
  | FPar (o : op) (f : frame) (v : N) (got : option bytes)   (* node.go:628 parent.lockCheck *)
  | FRd (o : op) (f : frame) (v : N) (x : nat) (vx : N)      (* node.go:578, 586 *)
  | FVal (o : op) (f : frame) (v : N) (x : nat) (vx : N) (next : option ptr)  (* node.go:587 *)
  | FLeaf (o : op) (f : frame) (v : N) (x : nat) (vx : N) (l : leaf)          (* node.go:580, 593 *)
  | FNext (o : op) (f : frame) (v : N) (x : nat)             (* node.go:599 *)
  | IMis2 (o : op) (f : frame) (v : N) (fk : bytes)          (* node.go:637-643 *)
  | IPl (o : op) (f : frame) (v : N) (p : nat) (fk : bytes)  (* art.go:149 *)
  | IDep (o : op) (f : frame) (v : N)                        (* art.go:165 *)
  | IFind (o : op) (f : frame) (v : N) (d : nat)             (* art.go:182 *)
  | IFull (o : op) (f : frame) (v : N) (d : nat)             (* art.go:189 *)
  | IPar (o : op) (f : frame) (v : N) (d : nat) (np : ptr) (slot : nat)  (* art.go:218 *)
  (* remove *)
  | DLeaf (o : op) (f : frame) (v : N) (l : option leaf)     (* art.go:265 *)
  | DCmp (o : op) (f : frame) (v : N)                        (* art.go:273 *)
  | DBug (o : op) (f : frame) (v : N)                        (* art.go:318 *)
  | DShr (o : op) (f : frame) (v : N) (d pos : nat)          (* art.go:320 *)
  (* locking, writing, unlocking *)
  | LPar (o : op) (f : frame) (v : N) (mu : mut)             (* parent.upgradeToLock *)
  | LCur2 (o : op) (f : frame) (v : N) (mu : mut)            (* currNode.upgradeToLockWithNode, parent held *)
  | LCur1 (o : op) (f : frame) (v : N) (mu : mut)            (* currNode.upgradeToLock, nothing held *)
  | LChk (o : op) (f : frame) (v : N) (mu : mut)             (* parent.rUnlockWithNode, current held *)
  | PWrite (o : op) (f : frame) (v : N) (mu : mut)           (* inside the critical section *)
  | CWait (o : op) (f : frame) (v : N) (mu : mut) (i c : nat)            (* lock.go:45 child.rLock *)
  | CCas (o : op) (f : frame) (v : N) (mu : mut) (i c : nat) (vc : N)    (* lock.go:49 *)
  | CWrite (o : op) (f : frame) (v : N) (mu : mut) (i c : nat)           (* node.go:425-443 *)
  | PUnlock (o : op) (us : list (nat * bool)) (done : bool). (* unlock each, obsolete if [true] *)

(** The nodes whose lock a goroutine holds, and those it has taken out of the tree and
    will mark obsolete. *)
Definition held (p : pc) : list nat :=
  match p with
  | LCur2 _ f _ _ => [f_par f]
  | LChk _ f _ _ => [f_cur f]
  | PWrite _ f _ mu => if two mu then [f_cur f; f_par f] else [f_cur f]
  | CWait _ f _ _ _ _ | CCas _ f _ _ _ _ _ => [f_cur f; f_par f]
  | CWrite _ f _ _ _ c => [c; f_cur f; f_par f]
  | PUnlock _ us _ => map fst us
  | _ => []
  end.
Definition doomed (p : pc) : list nat :=
  match p with PUnlock _ us _ => map fst (filter snd us) | _ => [] end.

Definition op_key (o : op) : bytes := match o with OPut k _ | OGet k | ODelete k => k end.

(** ** Version words *)
Definition set_ver (m : mem) (a : nat) (v : N) : mem :=
  match nth_error (m_cells m) a with
  | Some c => mkMem (set_nth (m_cells m) a (mkCell v (c_node c))) (m_root m)
  | None => m
  end.
Definition locked (v : N) : bool := N.testbit v 1.
Definition obsolete (v : N) : bool := N.testbit v 0.

(** Outcome of a step: the goroutine waits, or it goes on. *)
Inductive sres := SBlock | SGo (m : mem) (p : pc).

Section Step.
Context (m : mem) (o : op).

Definition crash : sres := SGo m (PCrash o).
Definition retry : pc := PStart o.
Definition lift {A} (r : res A) (k : A -> sres) : sres :=
  match r with Ok x => k x | _ => crash end.
Definition go (p : pc) : sres := SGo m p.

(** lock.go:10-13, 65-77 rLock.  The spinning itself is not a step. *)
Definition rlock (a : nat) (ok : N -> pc) (bad : pc) : sres :=
  lift (get_ver m a) (fun w =>
    if locked w then SBlock else if obsolete w then go bad else go (ok w)).
(** lock.go:15-21 lockCheck, rUnlock *)
Definition vcheck (a : nat) (v : N) (ok bad : pc) : sres :=
  lift (get_ver m a) (fun w => go (if N.eqb v w then ok else bad)).
(** lock.go:31-33 upgradeToLock *)
Definition vcas (a : nat) (v : N) (ok bad : pc) : sres :=
  lift (get_ver m a) (fun w =>
    if N.eqb w v then SGo (set_ver m a (v + 2)) ok else go bad).
(** lock.go:57-63 unlock, unlockObsolete *)
Definition vunlock (a : nat) (obs : bool) (next : pc) : sres :=
  lift (get_ver m a) (fun w => SGo (set_ver m a (w + (if obs then 3 else 2))) next).
End Step.

(** ** The writes of the critical sections *)
(** compressChild and the node4 case of removeChildAndShrink (node.go:404-417, 420):
    which child is pulled up. *)
Definition pulled (n : node) (mu : mut) (key : bytes) : res (option nat) :=
  match mu with
  | MCompress => Ok (Some 0)
  | MShrink d =>
      match n_type n, n_pleaf n with
      | Node4, None =>
          if Nat.eqb (n_num n) 1 then Ok None else
          k0 <- idx (n_keys n) 0 ;; b <- idx key d ;; Ok (Some (if Nat.eqb k0 b then 1 else 0))
      | _, _ => Ok None
      end
  | _ => Ok None
  end.

(** node.go:420-422: the inner child that must be locked first. *)
Definition child_lock (n : node) (mu : mut) (key : bytes) : res (option (nat * nat)) :=
  oi <- pulled n mu key ;;
  match oi with
  | None => Ok None
  | Some i =>
      co <- idx (n_children n) i ;;
      match co with
      | None => Panic
      | Some (PLeaf _) => Ok None
      | Some (PNode c) => Ok (Some (i, c))
      end
  end.

(** Allocate [nn] and store it through [l]. *)
Definition place (m : mem) (l : loc) (nn : node) : res mem :=
  let '(m1, na) := alloc m nn in store m1 l (PNode na).

(** The writes of a critical section that locks no child. *)
Definition commit (m : mem) (o : op) (f : frame) (mu : mut) : res mem :=
  n <- get_node m (f_cur f) ;;
  match o, mu with
  | OPut key value, MSplit p fk =>
      ' (n', nn) <- insertSplitPrefix (f_cur f) n key fk value (f_depth f) p ;;
      m1 <- put_node m (f_cur f) n' ;;
      place m1 (f_loc f) nn
  | OPut key value, MLeaf => put_node m (f_cur f) (updatePrefixLeaf n key value)
  | OPut key value, MGrow d =>
      b <- idx key d ;;
      nn <- growAndInsert n b (PLeaf (newLeaf key value)) ;;
      place m (f_loc f) nn
  | OPut key value, MIns d =>
      b <- idx key d ;;
      n' <- insertChild n b (PLeaf (newLeaf key value)) ;;
      put_node m (f_cur f) n'
  | OPut key value, MExp d l slot =>
      r <- updateOrExpand l key value (d + 1) ;;
      match r with
      | inl nl => store m (LSlot (f_cur f) slot) (PLeaf nl)
      | inr nn => place m (LSlot (f_cur f) slot) nn
      end
  | ODelete key, MClear => put_node m (f_cur f) (set_pleaf n None)
  | ODelete key, MRem i => n' <- removeChild n i ;; put_node m (f_cur f) n'
  | ODelete key, MCompress | ODelete key, MShrink _ =>
      oi <- pulled n mu key ;;
      match oi with
      | Some i =>
          co <- idx (n_children n) i ;;
          match co with Some (PLeaf l) => store m (f_loc f) (PLeaf l) | _ => Panic end
      | None =>
          match mu with
          | MShrink d =>
              b <- idx key d ;;
              match n_type n with
              | Node4 =>
                  match n_pleaf n with
                  | Some l => store m (f_loc f) (PLeaf l)
                  | None => place m (f_loc f) newNode4
                  end
              | Node16 => nn <- shrink16 n b ;; place m (f_loc f) nn
              | Node48 => nn <- shrink48 n b ;; place m (f_loc f) nn
              | Node256 => nn <- shrink256 n b ;; place m (f_loc f) nn
              | Dummy => Panic
              end
          | _ => Panic
          end
      end
  | _, _ => Panic
  end.

(** node.go:425-443 compressChild with an inner child: the three nodes are held.  (The
    code unlocks the child before the store through nodeLoc; the slot belongs to the
    parent, which stays locked.) *)
Definition commit_child (m : mem) (f : frame) (i c : nat) : res mem :=
  n <- get_node m (f_cur f) ;;
  child <- get_node m c ;;
  ' (pre, tmp, plen) <- mergePrefix n child i ;;
  m1 <- put_node m (f_cur f) (set_prefix n pre) ;;
  m2 <- put_node m1 c (set_plen (set_prefix child tmp) plen) ;;
  store m2 (f_loc f) (PNode c).

(** The unlocks at the end of a critical section. *)
Definition unlocks (f : frame) (mu : mut) : list (nat * bool) :=
  if two mu then [(f_cur f, retires mu); (f_par f, false)] else [(f_cur f, false)].

(** node.go:504-514, the rest of checkPrefix *)
Definition checkPrefix_rest (n : node) (key : bytes) (depth : nat) : res (nat * bool) :=
  let nextPos := depth + n_plen n in
  if Nat.ltb (length key) nextPos then Ok (0, false) else
  kp <- slice key depth nextPos ;;
  keyBuf <- copy_at (zeros 8) 0 kp ;;
  Ok (nextPos, beqb keyBuf (n_prefix n)).

(** ** One step of a goroutine.  [nd] is what the reads of this step return; [first]
    chooses between the two evaluation orders Go allows for t.root and
    t.dummy.waitUnlock() in art.go:38, 48, 58. *)
Definition tstep (first : bool) (nd : node) (m : mem) (p : pc) : sres :=
  match p with
  | PIdle | PCrash _ | PRet _ _ => SBlock
  | PStart o =>
      if first then match m_root m with PNode r => go m (PRoot o r) | PLeaf _ => crash m o end
      else lift m o (get_ver m 0) (fun w => if locked w then SBlock else go m (PDum o w))
  | PRoot o r =>
      lift m o (get_ver m 0) (fun w => if locked w then SBlock else go m (PLock o (mkF 0 0 w LRoot r)))
  | PDum o w => match m_root m with PNode r => go m (PLock o (mkF 0 0 w LRoot r)) | PLeaf _ => crash m o end
  | PLock o f =>
      rlock m o (f_cur f) (fun v => match o with OPut _ _ => IMis o f v | _ => PPar o f v end) (retry o)
  | PPar o f v => vcheck m o (f_par f) (f_pv f) (PRead0 o f v) (retry o)
  | PRead0 o f v => go m (if Nat.eqb (n_plen nd) 0 then PRead2 o f v (f_depth f) else PRead1 o f v)
  | PRead1 o f v =>
      lift m o (checkPrefix_rest nd (op_key o) (f_depth f)) (fun '(d, ok) =>
        go m (if ok then PRead2 o f v d else PMiss o f v))
  | PRead2 o f v d =>
      let key := op_key o in
      if Nat.eqb d (length key) then
        match o with
        | ODelete _ => go m (DLeaf o f v (n_pleaf nd))
        | _ => go m (PNext o f v d (option_map PLeaf (n_pleaf nd)) 0 0)
        end
      else if Nat.ltb d (length key) then
        lift m o (idx key d) (fun b =>
        lift m o (findChild nd b) (fun '(next, slot, pos) => go m (PNext o f v d next slot pos)))
      else match o with
        | ODelete _ => go m (PMiss o f v)
        | _ => go m (PNext o f v d None 0 0)
        end
  | PMiss o f v => vcheck m o (f_cur f) v (PRet o None) (retry o)
  | PNext o f v d next slot pos =>
      lift m o (get_ver m (f_cur f)) (fun w =>
      if negb (N.eqb v w) then go m (retry o) else
      match o, next with
      | OPut _ _, None => go m (IFull o f v d)
      | OPut _ _, Some np => go m (IPar o f v d np slot)
      | _, None => go m (PRet o None)
      | _, Some (PNode a) => go m (PLock o (mkF (d + 1) (f_cur f) v (LSlot (f_cur f) slot) a))
      | OGet key, Some (PLeaf l) =>
          lift m o (leaf_match l key) (fun mt =>
          if mt : bool then lift m o (leaf_value l) (fun x => go m (PRet o (Some x)))
          else go m (PRet o None))
      | ODelete key, Some (PLeaf l) =>
          lift m o (leaf_match l key) (fun mt =>
          go m (if mt : bool then DShr o f v d pos else DBug o f v))
      end)
  (* insert *)
  | IMis o f v => go m (if Nat.leb (n_plen nd) maxPrefixLen then IMis1 o f v else FChk o f v None)
  | IMis1 o f v =>
      lift m o (krest <- slice_from (op_key o) (f_depth f) ;;
                miss_loop (n_prefix nd) krest (Nat.min (length (op_key o) - f_depth f) (n_plen nd)) 0)
        (fun p => go m (IPl o f v p []))
  | FChk o f v got => vcheck m o (f_cur f) v (FPar o f v got) (retry o)
  | FPar o f v got =>
      vcheck m o (f_par f) (f_pv f)
        (match got with Some fk => IMis2 o f v fk | None => FRd o f v (f_cur f) v end) (retry o)
  | FRd o f v x vx =>
      match n_pleaf nd with
      | Some l => go m (FLeaf o f v x vx l)
      | None => lift m o (firstChild nd) (fun next => go m (FVal o f v x vx next))
      end
  | FVal o f v x vx next =>
      lift m o (get_ver m x) (fun w =>
      if negb (N.eqb vx w) then go m (FChk o f v None) else
      match next with
      | None => crash m o
      | Some (PLeaf l) => go m (FLeaf o f v x vx l)
      | Some (PNode y) => go m (FNext o f v y)
      end)
  | FLeaf o f v x vx l =>
      lift m o (get_ver m x) (fun w =>
      if negb (N.eqb vx w) then go m (FChk o f v None) else
      lift m o (leaf_key l) (fun k => go m (FChk o f v (Some k))))
  | FNext o f v y => rlock m o y (fun vy => FRd o f v y vy) (FChk o f v None)
  | IMis2 o f v fk =>
      lift m o (miss_loop (op_key o) fk (Nat.min (length (op_key o)) (f_depth f + n_plen nd) - f_depth f) (f_depth f))
        (fun i => go m (IPl o f v (i - f_depth f) fk))
  | IPl o f v p fk => go m (if Nat.eqb p (n_plen nd) then IDep o f v else LPar o f v (MSplit p fk))
  | IDep o f v =>
      let d := f_depth f + n_plen nd in
      if Nat.eqb d (length (op_key o)) then go m (LCur1 o f v MLeaf)
      else if Nat.ltb d (length (op_key o)) then go m (IFind o f v d)
      else crash m o                                   (* key[depth] out of range *)
  | IFind o f v d =>
      lift m o (idx (op_key o) d) (fun b =>
      lift m o (findChild nd b) (fun '(next, slot, pos) => go m (PNext o f v d next slot pos)))
  | IFull o f v d =>
      lift m o (isFull nd) (fun full =>
        go m (if full : bool then LPar o f v (MGrow d) else LCur1 o f v (MIns d)))
  | IPar o f v d np slot =>
      vcheck m o (f_par f) (f_pv f)
        (match np with
         | PLeaf l => LCur1 o f v (MExp d l slot)
         | PNode a => PLock o (mkF (d + 1) (f_cur f) v (LSlot (f_cur f) slot) a)
         end) (retry o)
  (* remove *)
  | DLeaf o f v l =>
      lift m o (get_ver m (f_cur f)) (fun w =>
      if negb (N.eqb v w) then go m (retry o) else
      lift m o (match l with None => Ok false | Some l => leaf_match l (op_key o) end) (fun mt =>
      go m (if mt : bool then DCmp o f v else PMiss o f v)))
  | DCmp o f v =>
      lift m o (get_node m (f_par f)) (fun pn =>
      go m (if shouldCompress nd (n_type pn) then LPar o f v MCompress else LCur1 o f v MClear))
  | DBug o f v => vcheck m o (f_cur f) v (retry o) (PRet o None)   (* art.go:318: negated *)
  | DShr o f v d pos =>
      lift m o (get_node m (f_par f)) (fun pn =>
      lift m o (shouldShrink nd (n_type pn)) (fun sh =>
      go m (if sh : bool then LPar o f v (MShrink d) else LCur1 o f v (MRem pos))))
  (* locks *)
  | LPar o f v mu => vcas m o (f_par f) (f_pv f) (LCur2 o f v mu) (retry o)
  | LCur2 o f v mu => vcas m o (f_cur f) v (PWrite o f v mu) (PUnlock o [(f_par f, false)] false)
  | LCur1 o f v mu => vcas m o (f_cur f) v (if checks mu then LChk o f v mu else PWrite o f v mu) (retry o)
  | LChk o f v mu =>
      vcheck m o (f_par f) (f_pv f) (PWrite o f v mu) (PUnlock o [(f_cur f, false)] false)
  | PWrite o f v mu =>
      lift m o (n <- get_node m (f_cur f) ;; child_lock n mu (op_key o)) (fun ch =>
      match ch with
      | Some (i, c) => go m (CWait o f v mu i c)
      | None => lift m o (commit m o f mu) (fun m' => SGo m' (PUnlock o (unlocks f mu) true))
      end)
  | CWait o f v mu i c =>
      rlock m o c (fun vc => CCas o f v mu i c vc)
        (PUnlock o [(f_cur f, false); (f_par f, false)] false)      (* art.go:284-290, 330-336 *)
  | CCas o f v mu i c vc => vcas m o c vc (CWrite o f v mu i c) (CWait o f v mu i c)
  | CWrite o f v mu i c =>
      lift m o (commit_child m f i c) (fun m' => SGo m' (PUnlock o ((c, false) :: unlocks f mu) true))
  | PUnlock o us done =>
      match us with
      | [] => go m (if done then PRet o None else retry o)
      | (a, obs) :: us' => vunlock m o a obs (PUnlock o us' done)
      end
  end.

(** The node, and the version under which it was entered, that a step reads. *)
Definition reads (p : pc) : option (nat * N) :=
  match p with
  | PRead0 _ f v | PRead1 _ f v | PRead2 _ f v _ | IMis _ f v | IMis1 _ f v | IMis2 _ f v _
  | IPl _ f v _ _ | IDep _ f v | IFind _ f v _ | IFull _ f v _ | DCmp _ f v | DShr _ f v _ _ => Some (f_cur f, v)
  | FRd _ _ _ x vx => Some (x, vx)
  | _ => None
  end.

(** A value a torn read may return: the node's kind never changes, the arrays have their
    fixed sizes, numChildren and the index entries stay within the arrays. *)
Definition shape (t : ntype) (n : node) : Prop :=
  n_type n = t /\ length (n_prefix n) = 8 /\
  match t with
  | Node4 => length (n_keys n) = 4 /\ length (n_children n) = 4 /\ n_num n <= 4
  | Node16 => length (n_keys n) = 16 /\ length (n_children n) = 16 /\ n_num n <= 16
  | Node48 => length (n_index n) = 256 /\ length (n_children n) = 48 /\ Forall (fun i => i <= 48) (n_index n) /\ n_num n <= 48
  | Node256 => length (n_children n) = 256 /\ n_num n < 256
  | Dummy => True
  end.

Definition sees (m : mem) (a : nat) (v : N) (nd : node) : Prop :=
  exists c, nth_error (m_cells m) a = Some c /\
    (c_ver c = v -> nd = c_node c) /\ (c_ver c <> v -> shape (n_type (c_node c)) nd).
Definition reads_ok (m : mem) (p : pc) (nd : node) : Prop :=
  match reads p with Some (a, v) => sees m a v nd | None => True end.

(** ** The system *)
Record sys := mkSys { s_mem : mem; s_thr : nat -> pc }.
Definition init : sys := mkSys New (fun _ => PIdle).
Definition upd_thr (th : nat -> pc) (t : nat) (p : pc) : nat -> pc :=
  fun u => if Nat.eqb u t then p else th u.

Inductive ev := ECall (t : nat) (o : op) | ERet (t : nat) (r : option bytes) | ETau (t : nat).

Inductive step (s : sys) : ev -> sys -> Prop :=
  | step_call t o : s_thr s t = PIdle -> valid_op o ->
      step s (ECall t o) (mkSys (s_mem s) (upd_thr (s_thr s) t (PStart o)))
  | step_ret t o r : s_thr s t = PRet o r ->
      step s (ERet t r) (mkSys (s_mem s) (upd_thr (s_thr s) t PIdle))
  | step_tau t first nd m' p' :
      reads_ok (s_mem s) (s_thr s t) nd -> tstep first nd (s_mem s) (s_thr s t) = SGo m' p' ->
      step s (ETau t) (mkSys m' (upd_thr (s_thr s) t p')).

(** Executions, oldest event first. *)
Inductive exec : list ev -> sys -> Prop :=
  | exec_nil : exec [] init
  | exec_step h s e s' : exec h s -> step s e s' -> exec (h ++ [e]) s'.
