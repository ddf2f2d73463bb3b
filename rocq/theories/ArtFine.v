(** * ArtFine: Get, Put and Delete run by any number of goroutines, one field at a time.

    The machine of ArtConc.v performs all plain reads of one group in one step and all
    plain writes of one critical section in another.  Here every plain load and every
    plain store of a struct field or array element (/repo/art/node.go) is a step of its
    own, in the order of the Go code, so readers see half-finished writes and several
    reads of the same field may disagree.

    What is left atomic: the 8-byte prefix word loaded in node.go:512; the load of
    t.root.  A new node is filled before its address is stored anywhere, so the store
    publishes it (memory is sequentially consistent).  A node's kind and a leaf's memory
    never change after allocation.  Everything that does not touch plain fields (the
    version words, t.root) is taken from ArtConc.tstep unchanged. *)
From Verif Require Import Base BitsModel VecModel ArtNode ArtModel ArtSpec ArtConc ArtConcStep.

(** ** Reading *)
(** A goroutine in the middle of a group of reads of one node: what it does with the
    next value.  An index out of range is passed on as [Panic]. *)
Inductive rd :=
  | RDone (p : pc)
  | RNum (k : nat -> rd)                              (* numChildren *)
  | RPlen (k : nat -> rd)                             (* prefixLen *)
  | RWord (k : bytes -> rd)                           (* prefix, as one word *)
  | RLeaf (k : option leaf -> rd)                     (* prefixLeaf *)
  | RPre (i : nat) (k : res byte -> rd)               (* prefix[i] *)
  | RKey (i : nat) (k : res byte -> rd)               (* keys[i] *)
  | RChild (i : nat) (k : res (option ptr) -> rd)     (* children[i] *)
  | RIdx (i : nat) (k : res nat -> rd).               (* index[i] *)

(** One load, from the node as it is at this moment. *)
Definition rstep (n : node) (r : rd) : rd :=
  match r with
  | RDone p => RDone p
  | RNum k => k (n_num n)
  | RPlen k => k (n_plen n)
  | RWord k => k (n_prefix n)
  | RLeaf k => k (n_pleaf n)
  | RPre i k => k (idx (n_prefix n) i)
  | RKey i k => k (idx (n_keys n) i)
  | RChild i k => k (idx (n_children n) i)
  | RIdx i k => k (idx (n_index n) i)
  end.

Section Reads.
Context (o : op).
Definition orc {A} (x : res A) (k : A -> rd) : rd := match x with Ok a => k a | _ => RDone (PCrash o) end.

Section Find.
Context (b : byte) (k : option ptr * nat * nat -> rd).
(** node.go:521-525; numChildren is loaded in every round.  keys[4] would panic, so five
    rounds are enough. *)
Fixpoint find4_rd (fuel i : nat) : rd :=
  match fuel with
  | O => RDone (PCrash o)
  | S fuel' =>
      RNum (fun num =>
      if Nat.ltb i num then
        RKey i (fun x => orc x (fun x =>
        if Nat.eqb x b then RChild i (fun c => orc c (fun c => k (c, i, i)))
        else find4_rd fuel' (i + 1)))
      else k (None, 0, 0))
  end.
(** node.go:528-530 *)
Fixpoint find16_rd (fuel i : nat) : rd :=
  match fuel with
  | O => k (None, 0, 0)
  | S fuel' =>
      RKey i (fun x => orc x (fun x =>
      if Nat.eqb x b then
        RNum (fun num =>
        if Nat.ltb i num then RChild i (fun c => orc c (fun c => k (c, i, i))) else k (None, 0, 0))
      else find16_rd fuel' (i + 1)))
  end.
(** node.go:517-543 findChild *)
Definition find_rd (t : ntype) : rd :=
  match t with
  | Node4 => find4_rd 5 0
  | Node16 => find16_rd 16 0
  | Node48 =>
      RIdx b (fun ix => orc ix (fun ix =>
      if Nat.ltb 0 ix then RChild (ix - 1) (fun c => orc c (fun c => k (c, ix - 1, b))) else k (None, 0, 0)))
  | Node256 => RChild b (fun c => orc c (fun c => k (c, b, b)))
  | Dummy => k (None, 0, 0)
  end.
End Find.

Section First.
Context (k : option ptr -> rd).
(** range.go:15-21 *)
Fixpoint first48_rd (fuel i : nat) : rd :=
  match fuel with
  | O => RDone (PCrash o)
  | S fuel' =>
      RIdx i (fun ix => orc ix (fun ix =>
      if Nat.eqb ix 0 then first48_rd fuel' (i + 1) else RChild (ix - 1) (fun c => orc c k)))
  end.
(** range.go:24-28 *)
Fixpoint first256_rd (fuel i : nat) : rd :=
  match fuel with
  | O => RDone (PCrash o)
  | S fuel' =>
      RChild i (fun c => orc c (fun c => match c with Some _ => k c | None => first256_rd fuel' (i + 1) end))
  end.
(** range.go:5-31 firstChild *)
Definition first_rd (t : ntype) : rd :=
  match t with
  | Node4 | Node16 => RChild 0 (fun c => orc c k)
  | Node48 => first48_rd 256 0
  | Node256 => first256_rd 256 0
  | Dummy => RDone (PCrash o)
  end.
End First.

(** node.go:614-618: prefix[i] against key[depth+i], for the [fuel] values of [i]
    starting at [i]. *)
Fixpoint miss_rd (key : bytes) (k : nat -> rd) (fuel i : nat) : rd :=
  match fuel with
  | O => k i
  | S fuel' =>
      RPre i (fun x => orc x (fun x => orc (idx key i) (fun y =>
      if Nat.eqb x y then miss_rd key k fuel' (i + 1) else k i)))
  end.
End Reads.

(** The group of reads that starts at [p], for a node of kind [t]; [pt] is the kind of
    the parent. *)
Definition rprog (t pt : ntype) (p : pc) : rd :=
  match p with
  | PRead0 o f v =>                                    (* node.go:501 *)
      RPlen (fun l => RDone (if Nat.eqb l 0 then PRead2 o f v (f_depth f) else PRead1 o f v))
  | PRead1 o f v =>                                    (* node.go:504-514 *)
      RPlen (fun l =>
      let nextPos := f_depth f + l in
      if Nat.ltb (length (op_key o)) nextPos then RDone (PMiss o f v) else
      RWord (fun w =>
      orc o (kp <- slice (op_key o) (f_depth f) nextPos ;; copy_at (zeros 8) 0 kp) (fun keyBuf =>
      RDone (if beqb keyBuf w then PRead2 o f v nextPos else PMiss o f v))))
  | PRead2 o f v d =>                                  (* art.go:88-93; 264; 305 *)
      if Nat.eqb d (length (op_key o)) then
        RLeaf (fun l => RDone (match o with
                               | ODelete _ => DLeaf o f v l
                               | _ => PNext o f v d (option_map PLeaf l) 0 0
                               end))
      else if Nat.ltb d (length (op_key o)) then
        orc o (idx (op_key o) d) (fun b =>
        find_rd o b (fun '(next, slot, pos) => RDone (PNext o f v d next slot pos)) t)
      else RDone (match o with ODelete _ => PMiss o f v | _ => PNext o f v d None 0 0 end)
  | IMis o f v => RPlen (fun l => RDone (if Nat.leb l maxPrefixLen then IMis1 o f v else FChk o f v None))  (* node.go:611 *)
  | IMis1 o f v =>                                     (* node.go:612-619 *)
      RPlen (fun l =>
      orc o (slice_from (op_key o) (f_depth f)) (fun krest =>
      miss_rd o krest (fun i => RDone (IPl o f v i [])) (Nat.min (length (op_key o) - f_depth f) l) 0))
  | FRd o f v x vx =>                                  (* node.go:578-579, 586 *)
      (* prefixLeaf is loaded twice; a nil pointer found the second time is a leaf without memory *)
      RLeaf (fun l =>
      match l with
      | Some _ => RLeaf (fun l => RDone (FLeaf o f v x vx (match l with Some l => l | None => [] end)))
      | None => first_rd o (fun next => RDone (FVal o f v x vx next)) t
      end)
  | IMis2 o f v fk =>                                  (* node.go:637-643 *)
      RPlen (fun l =>
      orc o (miss_loop (op_key o) fk (Nat.min (length (op_key o)) (f_depth f + l) - f_depth f) (f_depth f))
        (fun i => RDone (IPl o f v (i - f_depth f) fk)))
  | IPl o f v q fk => RPlen (fun l => RDone (if Nat.eqb q l then IDep o f v else LPar o f v (MSplit q fk)))  (* art.go:149 *)
  | IDep o f v =>                                      (* art.go:165-182 *)
      RPlen (fun l =>
      let d := f_depth f + l in
      RDone (if Nat.eqb d (length (op_key o)) then LCur1 o f v MLeaf
             else if Nat.ltb d (length (op_key o)) then IFind o f v d else PCrash o))
  | IFind o f v d =>                                   (* art.go:182 *)
      orc o (idx (op_key o) d) (fun b =>
      find_rd o b (fun '(next, slot, pos) => RDone (PNext o f v d next slot pos)) t)
  | IFull o f v d =>                                   (* node.go:51-64 *)
      let full (c : nat) := RNum (fun num => RDone (if Nat.eqb num c then LPar o f v (MGrow d) else LCur1 o f v (MIns d))) in
      match t with
      | Node4 => full 4
      | Node16 => full 16
      | Node48 => full 48
      | Node256 => RDone (LCur1 o f v (MIns d))
      | Dummy => RDone (PCrash o)
      end
  | DCmp o f v =>                                      (* node.go:493-498 *)
      let answer (b : bool) := RDone (if b then LPar o f v MCompress else LCur1 o f v MClear) in
      match t with
      | Node4 => RNum (fun num => answer (Nat.eqb num 1 && negb (ntype_eqb pt Dummy)))
      | _ => answer false
      end
  | DShr o f v d pos =>                                (* node.go:364-385 *)
      let answer (b : bool) := RDone (if b then LPar o f v (MShrink d) else LCur1 o f v (MRem pos)) in
      match t with
      | Node4 =>
          if ntype_eqb pt Dummy then answer false else
          RLeaf (fun l => RNum (fun num => answer (Nat.leb num (match l with None => 2 | Some _ => 1 end))))
      | Node16 => RNum (fun num => answer (Nat.leb num node16MinSize))
      | Node48 => RNum (fun num => answer (Nat.leb num node48MinSize))
      | Node256 =>
          RNum (fun num => if Nat.ltb 0 num then RNum (fun num => answer (Nat.leb num node256MinSize)) else answer false)
      | Dummy => RDone (PCrash o)
      end
  | _ => RDone p
  end.

(** ** Writing *)
Inductive fw :=
  | WNum (x : nat) | WPlen (x : nat) | WLeaf (l : option leaf) | WPre (i : nat) (b : byte)
  | WKey (i : nat) (b : byte) | WChild (i : nat) (c : option ptr) | WIdx (i x : nat) | WSlots (x : N).

Definition wr (n : node) (w : fw) : node :=
  match w with
  | WNum x => set_num n x
  | WPlen x => set_plen n x
  | WLeaf l => set_pleaf n l
  | WPre i b => set_prefix n (set_nth (n_prefix n) i b)
  | WKey i b => set_keys n (set_nth (n_keys n) i b)
  | WChild i c => set_children n (set_nth (n_children n) i c)
  | WIdx i x => set_index n (set_nth (n_index n) i x)
  | WSlots x => set_slots n x
  end.

(** The last thing a critical section does. *)
Inductive fin :=
  | FNone                                              (* nothing more *)
  | FStore (l : loc) (p : ptr)                         (* *nodeLoc = p *)
  | FPlace (l : loc) (nn : node)                       (* *nodeLoc = a new node *)
  | FUnl (c : nat) (l : loc).                          (* node.go:440-442: child.unlock(); *nodeLoc = child *)

(** Storing an array of 8 bytes *)
Definition pre_writes (x : bytes) : list fw := map (fun i => WPre i (nth i x 0)) (seq 0 8).

(** node.go:212-216, 218-222, 224-229, 231-234 *)
Definition ins_writes (n : node) (key : byte) (child : ptr) : list fw :=
  match n_type n with
  | Node4 | Node16 => [WKey (n_num n) key; WChild (n_num n) (Some child); WNum (inc8 (n_num n))]
  | Node48 =>
      let i := snd (allocSlot n) in
      [WSlots (n_slots (fst (allocSlot n))); WChild i (Some child); WIdx key (i + 1); WNum (inc8 (n_num n))]
  | Node256 => [WChild key (Some child); WNum (inc8 (n_num n))]
  | Dummy => []
  end.

(** node.go:336-362; [copy(x[i:], x[i+1:])] moves one element at a time. *)
Definition rem_writes (n : node) (i : nat) : list fw :=
  match n_type n with
  | Node4 | Node16 =>
      map (fun j => WKey j (nth (j + 1) (n_keys n) 0)) (seq i (length (n_keys n) - (i + 1))) ++
      map (fun j => WChild j (nth (j + 1) (n_children n) None)) (seq i (length (n_children n) - (i + 1))) ++
      [WNum (dec8 (n_num n)); WChild (dec8 (n_num n)) None]
  | Node48 =>
      let pos := nth i (n_index n) 0 - 1 in
      [WIdx i 0; WChild pos None; WSlots (n_slots (freeSlot n pos)); WNum (dec8 (n_num n))]
  | Node256 => [WChild i None; WNum (dec8 (n_num n))]
  | Dummy => []
  end.

Definition on (a : nat) (ws : list fw) : list (nat * fw) := map (pair a) ws.

(** The stores of a critical section that locks no child, in the order of the code.  The
    values stored depend only on nodes the goroutine holds. *)
Definition wprog (m : mem) (o : op) (f : frame) (mu : mut) : res (list (nat * fw) * fin) :=
  n <- get_node m (f_cur f) ;;
  match o, mu with
  | OPut key value, MSplit p fk =>                     (* node.go:545-573 *)
      ' (n', nn) <- insertSplitPrefix (f_cur f) n key fk value (f_depth f) p ;;
      Ok (on (f_cur f) (WPlen (n_plen n') :: pre_writes (n_prefix n')), FPlace (f_loc f) nn)
  | OPut key value, MLeaf => Ok (on (f_cur f) [WLeaf (Some (newLeaf key value))], FNone)   (* node.go:332-334 *)
  | OPut key value, MGrow d =>                         (* node.go:236-287 *)
      b <- idx key d ;;
      nn <- growAndInsert n b (PLeaf (newLeaf key value)) ;;
      Ok ([], FPlace (f_loc f) nn)
  | OPut key value, MIns d =>                          (* node.go:197-234 *)
      b <- idx key d ;;
      _ <- insertChild n b (PLeaf (newLeaf key value)) ;;
      Ok (on (f_cur f) (ins_writes n b (PLeaf (newLeaf key value))), FNone)
  | OPut key value, MExp d l slot =>                   (* node.go:297-330 *)
      r <- updateOrExpand l key value (d + 1) ;;
      match r with
      | inl nl => Ok ([], FStore (LSlot (f_cur f) slot) (PLeaf nl))
      | inr nn => Ok ([], FPlace (LSlot (f_cur f) slot) nn)
      end
  | ODelete key, MClear => Ok (on (f_cur f) [WLeaf None], FNone)       (* art.go:296 *)
  | ODelete key, MRem i =>                             (* node.go:336-362 *)
      _ <- removeChild n i ;; Ok (on (f_cur f) (rem_writes n i), FNone)
  | ODelete key, MCompress | ODelete key, MShrink _ => (* node.go:387-491 *)
      oi <- pulled n mu key ;;
      match oi with
      | Some i =>
          co <- idx (n_children n) i ;;
          match co with Some (PLeaf l) => Ok ([], FStore (f_loc f) (PLeaf l)) | _ => Panic end
      | None =>
          match mu with
          | MShrink d =>
              b <- idx key d ;;
              match n_type n with
              | Node4 =>
                  match n_pleaf n with
                  | Some l => Ok ([], FStore (f_loc f) (PLeaf l))
                  | None => Ok ([], FPlace (f_loc f) newNode4)
                  end
              | Node16 => nn <- shrink16 n b ;; Ok ([], FPlace (f_loc f) nn)
              | Node48 => nn <- shrink48 n b ;; Ok ([], FPlace (f_loc f) nn)
              | Node256 => nn <- shrink256 n b ;; Ok ([], FPlace (f_loc f) nn)
              | Dummy => Panic
              end
          | _ => Panic
          end
      end
  | _, _ => Panic
  end.

(** node.go:425-442 compressChild with an inner child.  (The bytes of n.prefix that the
    code leaves alone are stored again with the value they have.) *)
Definition wprog_child (m : mem) (f : frame) (i c : nat) : res (list (nat * fw) * fin) :=
  n <- get_node m (f_cur f) ;;
  child <- get_node m c ;;
  ' (pre, tmp, plen) <- mergePrefix n child i ;;
  Ok (on (f_cur f) (pre_writes pre) ++ on c (pre_writes tmp ++ [WPlen plen]), FUnl c (f_loc f)).

(** ** The machine *)
Inductive ft :=
  | TAt (p : pc)                                       (* about to do what ArtConc.pc says *)
  | TRd (p : pc) (a : nat) (r : rd)                    (* in the middle of the reads of [p] *)
  | TWr (p : pc) (ws : list (nat * fw)) (fn : fin)     (* in the middle of the writes of [p] *)
  | TSt (l : loc) (c : nat) (p : pc).                  (* node.go:442, then [p] *)

Definition crashed (p : pc) : ft := TAt (match pc_op p with Some o => PCrash o | None => p end).
Definition tri {A} (p : pc) (m : mem) (x : res A) (k : A -> option (mem * ft)) : option (mem * ft) :=
  match x with Ok a => k a | _ => Some (m, crashed p) end.

(** The kind of the parent, where it is looked at (node.go:367, 495). *)
Definition ptype (m : mem) (p : pc) : ntype :=
  match p with
  | DCmp _ f _ | DShr _ f _ _ _ => match get_node m (f_par f) with Ok n => n_type n | _ => Dummy end
  | _ => Dummy
  end.

(** Where a goroutine goes after the writes of [p]. *)
Definition after (p : pc) : pc :=
  match p with
  | PWrite o f _ mu | CWrite o f _ mu _ _ => PUnlock o (unlocks f mu) true
  | _ => p
  end.

(** One step of a goroutine; [None] when it waits. *)
Definition fgo (first : bool) (m : mem) (x : ft) : option (mem * ft) :=
  match x with
  | TAt p =>
      match reads p with
      | Some (a, _) => tri p m (get_node m a) (fun n => Some (m, TRd p a (rprog (n_type n) (ptype m p) p)))
      | None =>
          match p with
          | PWrite o f v mu =>
              tri p m (n <- get_node m (f_cur f) ;; child_lock n mu (op_key o)) (fun ch =>
              match ch with
              | Some (i, c) => Some (m, TAt (CWait o f v mu i c))
              | None => tri p m (wprog m o f mu) (fun '(ws, fn) => Some (m, TWr p ws fn))
              end)
          | CWrite o f v mu i c => tri p m (wprog_child m f i c) (fun '(ws, fn) => Some (m, TWr p ws fn))
          | _ => match tstep first newNode4 m p with SGo m' p' => Some (m', TAt p') | SBlock => None end
          end
      end
  | TRd p a r =>
      match r with
      | RDone p' => Some (m, TAt p')
      | _ => tri p m (get_node m a) (fun n => Some (m, TRd p a (rstep n r)))
      end
  | TWr p ((a, w) :: ws) fn =>
      tri p m (n <- get_node m a ;; put_node m a (wr n w)) (fun m' => Some (m', TWr p ws fn))
  | TWr p [] fn =>
      match fn with
      | FNone => Some (m, TAt (after p))
      | FStore l q => tri p m (store m l q) (fun m' => Some (m', TAt (after p)))
      | FPlace l nn => tri p m (place m l nn) (fun m' => Some (m', TAt (after p)))
      | FUnl c l => tri p m (get_ver m c) (fun w => Some (set_ver m c (w + 2), TSt l c (after p)))
      end
  | TSt l c p => tri p m (store m l (PNode c)) (fun m' => Some (m', TAt p))
  end.

Record fsys := mkFS { fs_mem : mem; fs_thr : nat -> ft }.
Definition finit : fsys := mkFS New (fun _ => TAt PIdle).
Definition fupd (th : nat -> ft) (t : nat) (x : ft) : nat -> ft := fun u => if Nat.eqb u t then x else th u.

Inductive fstep (s : fsys) : ev -> fsys -> Prop :=
  | fst_call t o : fs_thr s t = TAt PIdle -> valid_op o ->
      fstep s (ECall t o) (mkFS (fs_mem s) (fupd (fs_thr s) t (TAt (PStart o))))
  | fst_ret t o r : fs_thr s t = TAt (PRet o r) ->
      fstep s (ERet t r) (mkFS (fs_mem s) (fupd (fs_thr s) t (TAt PIdle)))
  | fst_tau t first m' x' : fgo first (fs_mem s) (fs_thr s t) = Some (m', x') ->
      fstep s (ETau t) (mkFS m' (fupd (fs_thr s) t x')).

Inductive fexec : list ev -> fsys -> Prop :=
  | fexec_nil : fexec [] finit
  | fexec_step h s e s' : fexec h s -> fstep s e s' -> fexec (h ++ [e]) s'.

(** Calls and returns only. *)
Definition visible (h : list ev) : list ev := filter (fun e => match e with ETau _ => false | _ => true end) h.
