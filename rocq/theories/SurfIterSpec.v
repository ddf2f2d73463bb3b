(** * Specification vocabulary for the SuRF iterators. *)
From Verif Require Import Base SurfModel SurfSpec SurfGetSpec SurfSuffix3 SurfIter.

(** Calling [step] while the iterator is valid visits exactly the list, as pairs of Key()
    and Value(). *)
Inductive visits (s : surf) (step : iter -> res iter) : iter -> list (bytes * bytes) -> Prop :=
| visits_end it : it_valid it = false -> visits s step it []
| visits_step it k v it' l : it_valid it = true -> it_key it = Ok k -> it_value s it = Ok v ->
    step it = Ok it' -> visits s step it' l -> visits s step it ((k, v) :: l).

(** What the iterator shows for a stored pair. *)
Definition shown (vs : nat) (keys : list bytes) (e : bytes * bytes) : bytes * bytes :=
  (dprefix keys (fst e), firstn vs (snd e)).

(** An iterator made for [s] (its buffers have one slot per level), in any state. *)
Record iter_for (s : surf) (it : iter) : Prop := {
  if_pos : length (d_pos (i_dense it)) = ld_height (s_ld s);
  if_plen : length (d_plen (i_dense it)) = ld_height (s_ld s);
  if_spos : length (p_pos (i_sparse it)) = ls_sparseLevels (s_ls s);
  if_snode : length (p_node (i_sparse it)) = ls_sparseLevels (s_ls s);
  if_splen : length (p_plen (i_sparse it)) = ls_sparseLevels (s_ls s)
}.

(** Some stored key is a prefix of every stored key. *)
Definition prefix_of_all (keys : list bytes) : Prop :=
  2 <= length keys /\ exists k, In k keys /\ forall k', In k' keys -> is_prefix k k'.
(** The first byte in which the stored keys differ is 0 for some of them. *)
Definition zero_branch (keys : list bytes) : Prop :=
  exists p, (forall k, In k keys -> is_prefix p k) /\ (exists k, In k keys /\ is_prefix (p ++ [0]) k) /\
    (exists k, In k keys /\ ~ is_prefix (p ++ [0]) k).
(** No stored key is a proper prefix of another. *)
Definition prefix_free (keys : list bytes) : Prop :=
  forall k k', In k keys -> In k' keys -> is_prefix k k' -> k = k'.

(** The stored information on [k] does not tell it from [q]: the distinguishing prefix and the
    next [r] bits agree. *)
Definition undecided (r : nat) (keys : list bytes) (k q : bytes) : Prop :=
  is_prefix (dprefix keys k) q /\
  topbits r (skipn (length (dprefix keys k)) k) = topbits r (skipn (length (dprefix keys k)) q).

(** What the [r] bits kept of [k] after its first [L] bytes say on its order relative to [q]: the
    kept parts compare as numbers. [Eq] is "cannot tell". *)
Definition part_compare (p p' : list nat * nat) : comparison :=
  match bcompare (fst p) (fst p') with Eq => Nat.compare (snd p) (snd p') | o => o end.
Definition verdict (r L : nat) (k q : bytes) : comparison := part_compare (real_or_zero L r k) (real_or_zero L r q).
(** [k] is a proper prefix of another stored key. *)
Definition continuedb (keys : list bytes) (k : bytes) : bool := existsb (fun k' => is_prefixb k k' && negb (beqb k' k)) keys.
(** The filter has no more than these bits to tell [k] from [q]. *)
Definition nearb (keys : list bytes) (k q : bytes) : bool := negb (continuedb keys k) && is_prefixb (dprefix keys k) q.
(** The filter takes [k] to be less than [q]. *)
Definition passedb (r : nat) (keys : list bytes) (q k : bytes) : bool :=
  match (if nearb keys k q then verdict r (length (dprefix keys k)) k q else bcompare k q) with Lt => true | _ => false end.
(** [q] ends exactly where stored keys branch in the first [dense] levels (a single key branches
    right at its start). *)
Definition stubb (dense : nat) (keys : list bytes) (q : bytes) : bool :=
  (splitb keys q || (Nat.eqb (length keys) 1 && Nat.eqb (length q) 0)) && Nat.ltb (levels_above keys q) dense.

(** How the filter orders [k] relative to a bound [q] of a range query. *)
Inductive outcome := Less | Same | Greater | Unknown.
(** The level at which [k] ends: the number of branchings passed before the one that tells it from
    its neighbours. *)
Definition leaf_level (keys : list bytes) (k : bytes) : nat :=
  levels_above keys (dprefix keys k) - (if continuedb keys k then 0 else 1).
(** The length of the shortest prefix of [k] with [dense] branchings above its end. *)
Definition start_depth (dense : nat) (keys : list bytes) (k : bytes) : nat :=
  hd 0 (filter (fun j => Nat.eqb (levels_above keys (firstn j k)) dense) (seq 0 (S (length k)))).
(** The order found when the first [dense] levels are stored densely. The kept bits decide once
    [q] extends the distinguishing prefix of [k]; for a key below the dense levels they are
    compared with those of the part of [q] below these levels, and a [q] that ends just there
    counts as equal to a [k] that is a proper prefix of another key. *)
Definition compared (r dense : nat) (keys : list bytes) (k q : bytes) : outcome :=
  let d := dprefix keys k in
  let sparse := Nat.leb dense (leaf_level keys k) in
  let w := if sparse then start_depth dense keys k else 0 in
  if is_prefixb d q then
    if continuedb keys k && beqb d q then Same else
    match part_compare (real_or_zero (length d) r k) (real_or_zero (length d - w) r (skipn w q)) with Lt => Less | Eq => Unknown | Gt => Greater end
  else if sparse && continuedb keys k && Nat.eqb (length q) w && is_prefixb q d then Same
  else match bcompare d q with Lt => Less | _ => Greater end.
(** Whether such a key counts as inside a range that ends at the bound. *)
Definition within (includeEnd : bool) (o : outcome) : bool :=
  match o with Less | Unknown => true | Same => includeEnd | Greater => false end.
(** What HasOverlap answers: the first key not taken to be less than [start] decides. *)
Definition overlap_answer (r dense : nat) (keys : list bytes) (start stop : bytes) (includeEnd : bool) : bool :=
  match find (fun k => negb (passedb r keys start k)) keys with
  | None => false
  | Some k => within includeEnd (compared r dense keys k stop)
  end.

(** A stored key that is a proper prefix of another one. *)
Definition inner_key (keys : list bytes) (k : bytes) : Prop := In k keys /\ exists k', In k' keys /\ is_prefix k k' /\ k <> k'.
(** Suffixes of at most 8 bits, or a query that is not an extension of any distinguishing prefix
    (so that no suffix is looked at). *)
Definition suffix_ok (r : nat) (keys : list bytes) (q : bytes) : Prop := r <= 8 \/ forall k, In k keys -> ~ is_prefix (dprefix keys k) q.
(** The Seek queries covered when the first [dense] levels of branchings are stored densely: where
    [q] extends a stored key that is a proper prefix of another one and lies below them, some
    stored key has the next byte of [q], too, or there are two larger next bytes. *)
Definition path_ok (dense : nat) (keys : list bytes) (q : bytes) : Prop :=
  forall k, inner_key keys k -> dense <= levels_above keys k -> is_prefix k q ->
    (exists k', In k' keys /\ is_prefix (firstn (S (length k)) q) k') \/
    (exists k1 k2, In k1 keys /\ In k2 keys /\ is_prefix k k1 /\ is_prefix k k2 /\ nth (length k) q 0 < nth (length k) k1 0 < nth (length k) k2 0).
(** ... and suffixes as above unless [q] is stored. *)
Definition seek_ok (dense r : nat) (keys : list bytes) (q : bytes) : Prop :=
  path_ok dense keys q /\ (In q keys \/ suffix_ok r keys q).

(** *** Sequences of calls *)
Inductive icall := ISeek (q : bytes) | IFirst | ILast | INext | IPrev.
Definition icall_run (s : surf) (it : iter) (c : icall) : res iter :=
  match c with
  | ISeek q => ' (it, _) <- it_seek s it q ;; Ok it
  | IFirst => it_seekToFirst s it
  | ILast => it_seekToLast s it
  | INext => it_next s it
  | IPrev => it_prev s it
  end.
(** The index of the first key that is not taken to be less than [q]. *)
Definition seek_index (r : nat) (keys : list bytes) (q : bytes) : option nat :=
  hd_error (filter (fun i => negb (passedb r keys q (nth i keys []))) (seq 0 (length keys))).
(** An ideal cursor over the stored keys: an index into them, or off the end. Seek goes to the
    first key not less than the query or, with suffixes of at most 8 bits or where no suffix is
    looked at, at most one key before, to a key the filter cannot tell from the query. *)
Definition moved (r : nat) (keys : list bytes) (cur : option nat) (c : icall) (cur' : option nat) : Prop :=
  match c, cur with
  | IFirst, _ => cur' = Some 0
  | ILast, _ => cur' = Some (length keys - 1)
  | INext, Some i => cur' = if S i <? length keys then Some (S i) else None
  | IPrev, Some i => cur' = if 0 <? i then Some (i - 1) else None
  | INext, None | IPrev, None => cur' = None
  | ISeek q, _ => cur' = seek_index r keys q /\
      (In q keys \/ suffix_ok r keys q ->
       match cur' with
       | None => Forall (fun k => blt k q) keys
       | Some i => i < length keys /\ Forall (fun k => blt k q) (firstn i keys) /\ Forall (fun k => blt q k) (skipn (S i) keys) /\
           (ble q (nth i keys []) \/ undecided r keys (nth i keys []) q)
       end)
  end.
(** Valid, Key and Value at a cursor. *)
Definition shows (vs : nat) (keys vals : list bytes) (s : surf) (it : iter) (cur : option nat) : Prop :=
  match cur with
  | None => it_valid it = false
  | Some i => i < length keys /\ it_valid it = true /\ it_key it = Ok (dprefix keys (nth i keys [])) /\ it_value s it = Ok (firstn vs (nth i vals []))
  end.
(** None of the calls panics, and after each of them the iterator is where the cursor is. *)
Fixpoint follows (vs r : nat) (keys vals : list bytes) (s : surf) (it : iter) (cur : option nat) (cs : list icall) : Prop :=
  shows vs keys vals s it cur /\
  match cs with
  | [] => True
  | c :: cs => exists it' cur', icall_run s it c = Ok it' /\ moved r keys cur c cur' /\ follows vs r keys vals s it' cur' cs
  end.
(** The calls covered. *)
Definition call_ok (dense : nat) (keys : list bytes) (c : icall) : Prop :=
  match c with
  | ISeek q => wf_bytes q = true /\ path_ok dense keys q
  | IFirst => 0 < dense /\ ~ prefix_of_all keys
  | ILast => 0 < dense /\ ~ prefix_of_all keys /\ ~ zero_branch keys
  | INext => True
  | IPrev => ~ prefix_of_all keys /\ ~ zero_branch keys
  end.
(** None of the calls panics or loops, nor do Key and Value at a valid position in between. *)
Fixpoint completes (s : surf) (it : iter) (cs : list icall) : Prop :=
  (it_valid it = true -> exists k v, it_key it = Ok k /\ it_value s it = Ok v) /\
  match cs with
  | [] => True
  | c :: cs => exists it', icall_run s it c = Ok it' /\ completes s it' cs
  end.
