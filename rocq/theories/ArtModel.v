(** * ArtModel: ART.New/Get/Put/Delete, run by one thread.

    /repo/art/art.go, /repo/art/lock.go and the parts of /repo/art/node.go that follow
    pointers.  The heap is a list of cells (version word and node); address 0 is the
    embedded dummy node.  Every function is given fuel for its loops and answers
    [Hang] when it runs out, so "returns" below always means "for all large enough
    fuel".  Waiting for a lock that is held answers [Hang] too: with one thread nobody
    can release it.  The failpoint.Inject calls (art.go:74, 82, 86, 141, 146, 164) are
    no-ops in a normal build and are left out. *)
From Verif Require Import Base BitsModel VecModel ArtNode.

Record cell := mkCell { c_ver : N; c_node : node }.

(** art.go:17-20: the dummy node (cell 0) and the root pointer; the other cells are the
    nodes allocated so far. *)
Record mem := mkMem { m_cells : list cell; m_root : ptr }.

(** A [**node]: the address of t.root or of a slot in a node's children array. *)
Inductive loc := LRoot | LSlot (a i : nat).

Definition get_node (m : mem) (a : nat) : res node := c <- idx (m_cells m) a ;; Ok (c_node c).
Definition get_ver (m : mem) (a : nat) : res N := c <- idx (m_cells m) a ;; Ok (c_ver c).

Definition put_node (m : mem) (a : nat) (n : node) : res mem :=
  c <- idx (m_cells m) a ;;
  Ok (mkMem (set_nth (m_cells m) a (mkCell (c_ver c) n)) (m_root m)).
Definition put_ver (m : mem) (a : nat) (v : N) : res mem :=
  c <- idx (m_cells m) a ;;
  Ok (mkMem (set_nth (m_cells m) a (mkCell v (c_node c))) (m_root m)).

(** [new(nodeX)]: a fresh cell with version 0. *)
Definition alloc (m : mem) (n : node) : mem * nat :=
  (mkMem (m_cells m ++ [mkCell 0 n]) (m_root m), length (m_cells m)).

(** [*nodeLoc = p] *)
Definition store (m : mem) (l : loc) (p : ptr) : res mem :=
  match l with
  | LRoot => Ok (mkMem (m_cells m) p)
  | LSlot a i =>
      n <- get_node m a ;;
      cs <- upd (n_children n) i (Some p) ;;
      put_node m a (set_children n cs)
  end.

(** art.go:27-32 New *)
Definition New : mem := mkMem [mkCell 0 dummyNode; mkCell 0 newNode4] (PNode 1).

(** lock.go:65-77 waitUnlock *)
Definition waitUnlock (m : mem) (a : nat) : res N :=
  v <- get_ver m a ;; if N.testbit v 1 then Hang else Ok v.

(** lock.go:10-13 rLock *)
Definition rLock (m : mem) (a : nat) : res (N * bool) :=
  v <- waitUnlock m a ;; Ok (v, negb (N.testbit v 0)).

(** lock.go:19-21 rUnlock, and 15-17 lockCheck *)
Definition rUnlock (m : mem) (a : nat) (version : N) : res bool :=
  v <- get_ver m a ;; Ok (N.eqb version v).

(** lock.go:31-33 upgradeToLock *)
Definition upgradeToLock (m : mem) (a : nat) (version : N) : res (mem * bool) :=
  v <- get_ver m a ;;
  if N.eqb v version then m' <- put_ver m a (w64 (version + 2)) ;; Ok (m', true) else Ok (m, false).

(** lock.go:57-59 unlock, 61-63 unlockObsolete *)
Definition unlock (m : mem) (a : nat) : res mem :=
  v <- get_ver m a ;; put_ver m a (w64 (v + 2)).
Definition unlockObsolete (m : mem) (a : nat) : res mem :=
  v <- get_ver m a ;; put_ver m a (w64 (v + 3)).

(** lock.go:23-29 rUnlockWithNode *)
Definition rUnlockWithNode (m : mem) (a : nat) (version : N) (locked : nat) : res (mem * bool) :=
  v <- get_ver m a ;;
  if N.eqb version v then Ok (m, true) else m' <- unlock m locked ;; Ok (m', false).

(** lock.go:35-41 upgradeToLockWithNode *)
Definition upgradeToLockWithNode (m : mem) (a : nat) (version : N) (locked : nat) : res (mem * bool) :=
  ' (m1, ok) <- upgradeToLock m a version ;;
  if ok then Ok (m1, true) else m' <- unlock m1 locked ;; Ok (m', false).

(** lock.go:43-55 lock: a failed compare-and-swap right after the load needs another
    thread, so with one thread the retry is never taken. *)
Definition lock (m : mem) (a : nat) : res (mem * bool) :=
  ' (v, ok) <- rLock m a ;;
  if negb ok then Ok (m, false) else
  ' (m', ok') <- upgradeToLock m a v ;;
  if ok' then Ok (m', true) else Hang.

(** art.go:64-121 search: value, exists, ok *)
Fixpoint search (fuel : nat) (m : mem) (key : bytes) (depth parent : nat) (pv : N) (curr : nat)
    : res (option bytes * bool) :=
  match fuel with
  | O => Hang
  | S fuel' =>
      ' (version, ok) <- rLock m curr ;;
      if negb ok then Ok (None, false) else
      pok <- rUnlock m parent pv ;;
      if negb pok then Ok (None, false) else
      n <- get_node m curr ;;
      ' (depth', cok) <- checkPrefixN n key depth ;;
      if negb cok then (r <- rUnlock m curr version ;; Ok (None, r)) else
      next <- (if Nat.eqb depth' (length key) then Ok (option_map PLeaf (n_pleaf n))
               else if Nat.ltb depth' (length key) then
                 b <- idx key depth' ;; ' (c, _, _) <- findChild n b ;; Ok c
               else Ok None) ;;
      lok <- rUnlock m curr version ;;
      if negb lok then Ok (None, false) else
      match next with
      | None => Ok (None, true)
      | Some (PLeaf l) =>
          mt <- leaf_match l key ;;
          if mt then (v <- leaf_value l ;; Ok (Some v, true)) else Ok (None, true)
      | Some (PNode a) => search fuel' m key (depth' + 1) curr version a
      end
  end.

(** art.go:34-42 Get: [Some v] stands for (v, true), [None] for (nil, false). *)
Fixpoint Get_loop (fuel retries : nat) (m : mem) (key : bytes) : res (option bytes) :=
  match retries with
  | O => Hang
  | S r =>
      match m_root m with
      | PLeaf _ => Panic
      | PNode root =>
          pv <- waitUnlock m 0 ;;
          ' (v, ok) <- search fuel m key 0 0 pv root ;;
          if ok then Ok v else Get_loop fuel r m key
      end
  end.
Definition Get (fuel : nat) (m : mem) (key : bytes) : res (option bytes) := Get_loop fuel fuel m key.

(** node.go:575-607 fullKey *)
Fixpoint fullKey (fuel : nat) (m : mem) (curr : nat) (version : N) : res (bytes * bool) :=
  match fuel with
  | O => Hang
  | S fuel' =>
      n <- get_node m curr ;;
      match n_pleaf n with
      | Some l =>
          ok <- rUnlock m curr version ;;
          if negb ok then Ok ([], false) else k <- leaf_key l ;; Ok (k, true)
      | None =>
          next <- firstChild n ;;
          ok <- rUnlock m curr version ;;
          if negb ok then Ok ([], false) else
          match next with
          | None => Panic
          | Some (PLeaf l) => k <- leaf_key l ;; Ok (k, true)
          | Some (PNode a) =>
              ' (v, ok) <- rLock m a ;;
              if negb ok then Ok ([], false) else fullKey fuel' m a v
          end
      end
  end.

(** node.go:627-635: retry fullKey while the two versions still hold *)
Fixpoint fullKey_retry (fuel retries : nat) (m : mem) (a parent : nat) (version pv : N)
    (got : option bytes) : res (option bytes) :=
  match retries with
  | O => Hang
  | S r =>
      ok1 <- rUnlock m a version ;;
      ok2 <- (if ok1 then rUnlock m parent pv else Ok false) ;;
      if negb ok2 then Ok None else
      match got with
      | Some k => Ok (Some k)
      | None =>
          ' (k, ok) <- fullKey fuel m a version ;;
          fullKey_retry fuel r m a parent version pv (if ok : bool then Some k else None)
      end
  end.

(** node.go:610-644 prefixMismatch.  [uint32(len(key))-depth] cannot wrap here because
    insert only calls it with depth <= len(key). *)
Definition prefixMismatch (fuel : nat) (m : mem) (a : nat) (key : bytes) (depth parent : nat)
    (version pv : N) : res (nat * bytes * bool) :=
  n <- get_node m a ;;
  if Nat.leb (n_plen n) maxPrefixLen then
    let l := Nat.min (length key - depth) (n_plen n) in
    krest <- slice_from key depth ;;
    i <- miss_loop (n_prefix n) krest l 0 ;;
    Ok (i, [], true)
  else
    o <- fullKey_retry fuel fuel m a parent version pv None ;;
    match o with
    | None => Ok (0, [], false)
    | Some fk =>
        let l := Nat.min (length key) (depth + n_plen n) in
        i <- miss_loop key fk (l - depth) depth ;;
        Ok (i - depth, fk, true)
    end.

(** art.go:126-240 insert; [ff] is the fuel of the fullKey loops. *)
Fixpoint insert (fuel ff : nat) (m : mem) (key value : bytes) (depth parent : nat) (pv : N)
    (nodeLoc : loc) (curr : nat) : res (mem * bool) :=
  match fuel with
  | O => Hang
  | S fuel' =>
      ' (version, ok) <- rLock m curr ;;
      if negb ok then Ok (m, false) else
      ' (p, fk, ok) <- prefixMismatch ff m curr key depth parent version pv ;;
      if negb ok then Ok (m, false) else
      n <- get_node m curr ;;
      if negb (Nat.eqb p (n_plen n)) then
        ' (m1, ok) <- upgradeToLock m parent pv ;;
        if negb ok then Ok (m1, false) else
        ' (m2, ok) <- upgradeToLockWithNode m1 curr version parent ;;
        if negb ok then Ok (m2, false) else
        ' (n', nn) <- insertSplitPrefix curr n key fk value depth p ;;
        m3 <- put_node m2 curr n' ;;
        let '(m4, na) := alloc m3 nn in
        m5 <- store m4 nodeLoc (PNode na) ;;
        m6 <- unlock m5 curr ;;
        m7 <- unlock m6 parent ;;
        Ok (m7, true)
      else
      let depth' := depth + n_plen n in
      if Nat.eqb depth' (length key) then
        ' (m1, ok) <- upgradeToLock m curr version ;;
        if negb ok then Ok (m1, false) else
        ' (m2, ok) <- rUnlockWithNode m1 parent pv curr ;;
        if negb ok then Ok (m2, false) else
        m3 <- put_node m2 curr (updatePrefixLeaf n key value) ;;
        m4 <- unlock m3 curr ;;
        Ok (m4, true)
      else
      b <- idx key depth' ;;
      ' (next, slot, _) <- findChild n b ;;
      lok <- rUnlock m curr version ;;
      if negb lok then Ok (m, false) else
      match next with
      | None =>
          full <- isFull n ;;
          if full : bool then
            ' (m1, ok) <- upgradeToLock m parent pv ;;
            if negb ok then Ok (m1, false) else
            ' (m2, ok) <- upgradeToLockWithNode m1 curr version parent ;;
            if negb ok then Ok (m2, false) else
            nn <- growAndInsert n b (PLeaf (newLeaf key value)) ;;
            let '(m3, na) := alloc m2 nn in
            m4 <- store m3 nodeLoc (PNode na) ;;
            m5 <- unlockObsolete m4 curr ;;
            m6 <- unlock m5 parent ;;
            Ok (m6, true)
          else
            ' (m1, ok) <- upgradeToLock m curr version ;;
            if negb ok then Ok (m1, false) else
            ' (m2, ok) <- rUnlockWithNode m1 parent pv curr ;;
            if negb ok then Ok (m2, false) else
            n' <- insertChild n b (PLeaf (newLeaf key value)) ;;
            m3 <- put_node m2 curr n' ;;
            m4 <- unlock m3 curr ;;
            Ok (m4, true)
      | Some np =>
          pok <- rUnlock m parent pv ;;
          if negb pok then Ok (m, false) else
          match np with
          | PLeaf l =>
              ' (m1, ok) <- upgradeToLock m curr version ;;
              if negb ok then Ok (m1, false) else
              r <- updateOrExpand l key value (depth' + 1) ;;
              m2 <- match r with
                    | inl nl => store m1 (LSlot curr slot) (PLeaf nl)
                    | inr nn => let '(m1', na) := alloc m1 nn in store m1' (LSlot curr slot) (PNode na)
                    end ;;
              m3 <- unlock m2 curr ;;
              Ok (m3, true)
          | PNode a => insert fuel' ff m key value (depth' + 1) curr version (LSlot curr slot) a
          end
      end
  end.

(** art.go:44-52 Put *)
Fixpoint Put_loop (fuel retries : nat) (m : mem) (key value : bytes) : res mem :=
  match retries with
  | O => Hang
  | S r =>
      match m_root m with
      | PLeaf _ => Panic
      | PNode root =>
          pv <- waitUnlock m 0 ;;
          ' (m', ok) <- insert fuel fuel m key value 0 0 pv LRoot root ;;
          if ok : bool then Ok m' else Put_loop fuel r m' key value
      end
  end.
Definition Put (fuel : nat) (m : mem) (key value : bytes) : res mem := Put_loop fuel fuel m key value.

(** node.go:419-444 compressChild on the node4 at [a] *)
Definition compressChild (m : mem) (a i : nat) (nodeLoc : loc) : res (mem * bool) :=
  n <- get_node m a ;;
  co <- idx (n_children n) i ;;
  match co with
  | None => Panic
  | Some (PLeaf l) => m' <- store m nodeLoc (PLeaf l) ;; Ok (m', true)
  | Some (PNode c) =>
      ' (m1, ok) <- lock m c ;;
      if negb ok then Ok (m1, false) else
      child <- get_node m1 c ;;
      ' (pre, tmp, plen) <- mergePrefix n child i ;;
      m2 <- put_node m1 a (set_prefix n pre) ;;
      m3 <- put_node m2 c (set_plen (set_prefix child tmp) plen) ;;
      m4 <- unlock m3 c ;;
      m5 <- store m4 nodeLoc (PNode c) ;;
      Ok (m5, true)
  end.

(** node.go:387-417, 446-491 removeChildAndShrink on the node at [a] *)
Definition removeChildAndShrink (m : mem) (a : nat) (key : byte) (nodeLoc : loc) : res (mem * bool) :=
  n <- get_node m a ;;
  match n_type n with
  | Node4 =>
      match n_pleaf n with
      | Some l => m' <- store m nodeLoc (PLeaf l) ;; Ok (m', true)
      | None =>
          if Nat.eqb (n_num n) 1 then
            let '(m1, na) := alloc m newNode4 in
            m2 <- store m1 nodeLoc (PNode na) ;; Ok (m2, true)
          else
            k0 <- idx (n_keys n) 0 ;;
            if Nat.eqb k0 key then compressChild m a 1 nodeLoc else compressChild m a 0 nodeLoc
      end
  | Node16 => nn <- shrink16 n key ;; let '(m1, na) := alloc m nn in
              m2 <- store m1 nodeLoc (PNode na) ;; Ok (m2, true)
  | Node48 => nn <- shrink48 n key ;; let '(m1, na) := alloc m nn in
              m2 <- store m1 nodeLoc (PNode na) ;; Ok (m2, true)
  | Node256 => nn <- shrink256 n key ;; let '(m1, na) := alloc m nn in
              m2 <- store m1 nodeLoc (PNode na) ;; Ok (m2, true)
  | Dummy => Panic
  end.

(** art.go:284-290 and 330-336: release [curr] (obsolete if [ok]) and [parent]. *)
Definition finish_remove (m : mem) (ok : bool) (curr parent : nat) : res (mem * bool) :=
  m1 <- (if ok then unlockObsolete m curr else unlock m curr) ;;
  m2 <- unlock m1 parent ;;
  Ok (m2, ok).

(** art.go:242-352 remove *)
Fixpoint remove (fuel : nat) (m : mem) (key : bytes) (depth parent : nat) (pv : N)
    (nodeLoc : loc) (curr : nat) : res (mem * bool) :=
  match fuel with
  | O => Hang
  | S fuel' =>
      ' (version, ok) <- rLock m curr ;;
      if negb ok then Ok (m, false) else
      pok <- rUnlock m parent pv ;;
      if negb pok then Ok (m, false) else
      n <- get_node m curr ;;
      pn <- get_node m parent ;;
      ' (depth', cok) <- checkPrefixN n key depth ;;
      if negb cok then (r <- rUnlock m curr version ;; Ok (m, r)) else
      if Nat.eqb depth' (length key) then
        lok <- rUnlock m curr version ;;
        if negb lok then Ok (m, false) else
        mt <- match n_pleaf n with None => Ok false | Some l => leaf_match l key end ;;
        if negb mt then (r <- rUnlock m curr version ;; Ok (m, r)) else
        if shouldCompress n (n_type pn) then
          ' (m1, ok) <- upgradeToLock m parent pv ;;
          if negb ok then Ok (m1, false) else
          ' (m2, ok) <- upgradeToLockWithNode m1 curr version parent ;;
          if negb ok then Ok (m2, false) else
          ' (m3, ok) <- compressChild m2 curr 0 nodeLoc ;;
          finish_remove m3 ok curr parent
        else
          ' (m1, ok) <- upgradeToLock m curr version ;;
          if negb ok then Ok (m1, false) else
          m2 <- put_node m1 curr (set_pleaf n None) ;;
          m3 <- unlock m2 curr ;;
          Ok (m3, true)
      else
      if Nat.ltb (length key) depth' then (r <- rUnlock m curr version ;; Ok (m, r)) else
      b <- idx key depth' ;;
      ' (next, slot, i) <- findChild n b ;;
      lok <- rUnlock m curr version ;;
      if negb lok then Ok (m, false) else
      match next with
      | None => Ok (m, true)
      | Some (PLeaf l) =>
          mt <- leaf_match l key ;;
          (* art.go:317-319: the negated result *)
          if negb mt then (r <- rUnlock m curr version ;; Ok (m, negb r)) else
          sh <- shouldShrink n (n_type pn) ;;
          if sh : bool then
            ' (m1, ok) <- upgradeToLock m parent pv ;;
            if negb ok then Ok (m1, false) else
            ' (m2, ok) <- upgradeToLockWithNode m1 curr version parent ;;
            if negb ok then Ok (m2, false) else
            ' (m3, ok) <- removeChildAndShrink m2 curr b nodeLoc ;;
            finish_remove m3 ok curr parent
          else
            ' (m1, ok) <- upgradeToLock m curr version ;;
            if negb ok then Ok (m1, false) else
            n' <- removeChild n i ;;
            m2 <- put_node m1 curr n' ;;
            m3 <- unlock m2 curr ;;
            Ok (m3, true)
      | Some (PNode a) => remove fuel' m key (depth' + 1) curr version (LSlot curr slot) a
      end
  end.

(** art.go:54-62 Delete *)
Fixpoint Delete_loop (fuel retries : nat) (m : mem) (key : bytes) : res mem :=
  match retries with
  | O => Hang
  | S r =>
      match m_root m with
      | PLeaf _ => Panic
      | PNode root =>
          pv <- waitUnlock m 0 ;;
          ' (m', ok) <- remove fuel m key 0 0 pv LRoot root ;;
          if ok : bool then Ok m' else Delete_loop fuel r m' key
      end
  end.
Definition Delete (fuel : nat) (m : mem) (key : bytes) : res mem := Delete_loop fuel fuel m key.
