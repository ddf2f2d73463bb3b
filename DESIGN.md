# Formal model of CodingCrush/myk in Rocq (Coq 8.16.1)

The repository has two independent packages:

* `art` - a concurrent adaptive radix tree (optimistic lock coupling);
* `surf` - an immutable succinct range filter (LOUDS-dense / LOUDS-sparse trie).

The model is a set of total, computable Gallina functions, one per Go function, each with
a comment citing the Go file and lines. Panics (index out of range, nil dereference,
explicit `panic`) are the explicit result `Panic`; loops that need not end carry fuel and
give the explicit result `Hang` when it runs out. No theorem treats `Panic` or `Hang` as a
normal result: "returns x" means `Ok x` for all sufficiently large fuel, "diverges" means
`Hang` for every fuel.

Model files contain no proofs, `*Spec.v` files contain only the vocabulary of the
statements, and `Props_*.v` files contain the theorems of MANIFEST.json with
`Print Assumptions` and, beside each, an `Example` showing a non-trivial instance.

## Trusted base

* Coq's kernel, including its bytecode machine (`vm_compute` is used in Examples and
  witnesses, and in a few finite case distinctions inside proofs). `native_compute` is not used.
* `Print Assumptions` answers "Closed under the global context" for **every** theorem
  listed in MANIFEST.json (the build prints it for each): no axiom is used, neither our own
  nor one of the standard library.
* `coqchk -o` over the whole development lists seven constants without a body, all in the standard
  library's `Coq.ssr.ssrunder` (`Under_rel.Under_rel`, `Under_rel_from_rel`,
  `Under_relE`, `Over_rel`, `over_rel`, `over_rel_done`, `under_rel_done`). They are the
  parameters of a module type of that file, which is loaded because `lia`'s `Zify` requires
  ssreflect; no theorem depends on them.
* The reading of the Go code: the correspondence between /repo and the model files listed
  below is by inspection. There is no extraction and nothing was run against the Go code.

## Modelled code

| Go | model file | simplifications |
|----|-----------|-----------------|
| surf/bits.go, bits_amd64.s | BitsModel.v, SurfMarshal.v (slice casts) | words are `N` with explicit mod 2^64; PDEP and TZCNT as documented by Intel; the machine is little-endian; the unsafe slice casts are byte (de)coding, so aliasing of the buffer is not modelled there (SurfBuf.v does) |
| surf/bits_vec.go | VecModel.v, SurfMarshal.v | uint32 counts are unbounded `nat` (for Build and Get, C64 proves that this makes no difference below 2^23 keys of less than 2^29 bytes and 2^32 bytes of values; for iterators and HasOverlap C68 does, for keys of less than 2^16 - 1 bytes); subtractions are checked (`Panic` instead of wrapping) |
| surf/builder.go, config.go | SurfModel.v | the builder's parallel per-level slices are one list of level records; `farm.Fingerprint64` is an arbitrary function `bytes -> N` (all theorems quantify over it) |
| surf/louds_dense.go, louds_sparse.go, surf.go (Get) | SurfModel.v | as above |
| surf.go, louds_*.go Marshal/Unmarshal | SurfMarshal.v | the writer never fails; uint32 fields truncate when written |
| Unmarshal with the filter's slices in the caller's buffer | SurfBuf.v | the receiver is a zero SuRF; the buffer's capacity is its length; the filter is used only between changes of the buffer, and iterators made before a change are not considered |
| values returned after Unmarshal, as slices of the caller's buffer | SurfBufVal.v | capacities reach to the end of the buffer; one caller, no concurrent use |
| WriteTo with an arbitrary writer, Unmarshal into a used filter | SurfIO.v | a short write returns an error (io.Writer's contract); sizes computed from a header do not wrap at 2^32, which matters only for headers Marshal never writes; a slice up to its capacity instead of its length is not modelled: every vector ends with a slice from the cursor to the length, which panics in both cases |
| surf.go, louds_*.go iterators, HasOverlap | SurfIter.v | `Key()` returns a copy (SurfKeyMem.v has the buffers; C65 proves that it makes no difference to keys read at once); slicing beyond the length but inside the capacity is `Panic` |
| the same iterators with their key buffers | SurfKeyMem.v | a buffer is the list of all arrays it used, the current one and a length; append writes in place if the capacity allows and otherwise moves to a new array with arbitrary spare capacity; `x[:n]` is allowed up to the capacity; arrays are never collected; compare and HasOverlap, which only read, are not repeated |
| bits_vec.go valueVector.Get, louds_*.go and surf.go Get and Value, as slices | SurfAlias.v | filters made by Build (after Unmarshal the capacity also covers the rest of the caller's buffer); nobody else uses the filter while the caller writes |
| surf Build and Get with uint32 arithmetic | SurfWord.v | every uint32 sum, difference, product and conversion is taken modulo 2^32; int and uint64 as in SurfModel (int is 64 bits) |
| surf MarshalSize, Marshal and Unmarshal with uint32 arithmetic | SurfWordMarshal.v | as SurfWord.v; cursors and sums of sizes, which the code keeps in int64, are unbounded; data with a suffix type above 3 is refused here, but not in SurfCap.v |
| Unmarshal and Get on arbitrary bytes | SurfCap.v | as SurfWord.v and SurfWordMarshal.v, with the capacities of the slices that Unmarshal makes; a suffix type above 3 is accepted, as in the code, and expects the suffix 0; Select of rank 0 is a panic, which is exact unless the damaged vector has 2^32 - 1 ones; iterators on damaged data are not modelled |
| surf iterators and HasOverlap with uint32 arithmetic | SurfWordIter.v | as SurfWord.v; a wrapped difference is kept as the huge number it is, so that an index by it panics |
| art/node.go, leaf layout | ArtNode.v | the four node structs share one record (kind, 8 prefix bytes, prefixLen, numChildren, prefixLeaf, keys, children, index, slot mask) with the exact array sizes; a leaf pointer is identified with the (immutable) leaf memory, encoded byte for byte |
| art/range.go lastChild (never called) | ArtRange.v | none; firstChild is in ArtNode.v |
| art/art.go, lock.go, one goroutine | ArtModel.v | version words and all retry branches are kept; fuel bounds the retries |
| values returned by the tree's Get, as slices of leaf blocks | ArtAlias.v | one goroutine; a block is named by the number of the Put that made it, and the tree of ArtModel.v carries that number (written in binary) in place of the value, which it only moves; so histories have fewer than 2^(2^32) calls; the layout of key and value inside a block is not modelled here |
| art/art.go, lock.go, any number of goroutines | ArtConc.v (groups of reads are one step, torn reads return anything), ArtFine.v (every load and store of a field is a step) | see below |

Not modelled: `SuffixType.String` and other
printing, failpoint injections, the `toNode` casts (identity here), benchmarks and tests,
garbage collection and memory exhaustion.

Concurrency, ArtFine.v: memory is sequentially consistent (the Go code is marked
`go:norace` and relies on more than the Go memory model gives); version counters are
unbounded (ArtWrap.v has the same machine with words of 64 bits, C61); the 8-byte prefix load at node.go:512 and
the load of `t.root` are atomic; a new node is filled before its address is stored; a
node's kind and a leaf's memory never change after allocation. Everything else - each
field, each array element, each load, store, compare-and-swap and add - is a separate
step, and any number of goroutines interleave arbitrarily. ArtFineProofs.v proves that
each execution of ArtFine has the same calls and returns as one of ArtConc.

Hypotheses used throughout: keys and values are byte strings (elements below 256) shorter
than 2^32; SuRF key lists total fewer than 2^32 bytes and hashLen + realLen <= 64 (the
suffix is kept in one word); marshalling theorems assume that each count fits the uint32
field it is stored in (`fields_fit`); C72_fields_fit proves this of every built filter with
fewer than 2^23 keys and 2^32 bytes of values.

## Per property

`R` marks properties whose full statement is false of the code: the full statement is
refuted by a witness, and what is true is proved beside it under a name ending in `_partial`.

| id | model | how it is proved |
|----|-------|------------------|
| C01 | ArtModel | ArtTree*: abstract tree with an invariant indexed by the path; ArtRep*: concrete nodes represent abstract ones; ArtSeq*: Get/Put/Delete refine lookup/bind/unbind; ArtTop lifts to all operation sequences |
| C02, C04, C05, C06 | ArtModel | same refinement; termination by the measure "remaining key bytes" |
| C03 R | ArtModel | Delete of an absent key that ends at another key's leaf diverges (art.go:318 negates rUnlock): refuted by a witness; for stored keys Delete returns; C44 says exactly which absent keys diverge |
| C07 | ArtNode | ArtNodeProofs*: every layout implements a finite map byte -> child, and add/remove/grow/shrink implement the map operations |
| C08 | ArtNode | leaf codec round trip |
| C09 | ArtModel | occupancy bounds are part of the tree invariant |
| C10 | ArtModel | the number of nodes visited is bounded by the key length |
| C11 | ArtConc, ArtFine | ArtConcLock: the owner of a lock bit is determined by the goroutines' program points; invariant over all executions |
| C12 | ArtFine | versions only grow while unlocked contents change only under the lock; ArtFineProps |
| C13 | ArtConc, ArtFine | ArtConcInv: what each goroutine knows at each point, stable under all steps of the others; ArtConcLin: linearization points; ArtFineProofs: simulation |
| C14 R | ArtConc, ArtFine | witness schedule in which Put indexes beyond its key after a concurrent Delete merged a node (art.go:149/165); Get and Delete never panic; see C43 for when Put does not |
| C15 | ArtConc, ArtFine | a waiting goroutine waits for one that is able to step; locks are taken parent first |
| C16 | ArtConc, ArtFine | ArtConcSolo: from any reachable state without lock bits a Get or Put running alone returns, by the measure of C02 |
| C17, C18, C19 | SurfModel | SurfTrie: trie of key groups, level by level; SurfBuild/SurfEnc: the builder's vectors list it breadth-first; SurfGet*: navigation by rank/select is navigation in the trie; SurfWalk: what the trie lookup answers |
| C20 R | SurfModel | false for queries that are proper prefixes of stored keys (the sparse Get skips the path comparison); equal answers for every other query; C20_split_exact says on exactly which queries two layouts differ |
| C21 | SurfModel | suffix packing and unpacking on N words |
| C22 R | SurfModel | Build panics on `[""]`; returns for every other non-empty strictly increasing list |
| C23 R | SurfModel | Build twice with one Builder: state of the first call leaks; Get on the second filter can panic; C56 says what the second filter does |
| C24, C25 | SurfMarshal | codec laws per vector, composed |
| C26, C27 R | SurfIter | positions = paths in the trie; Next/Prev go to the neighbouring path; false for filters without dense level, with a root prefix key, and (backward) with byte 0 at the root |
| C28, C29 R | SurfIter | Seek: common-prefix descent, suffix comparison, then neighbour; false when the query leaves a sparse node that has a terminator by an absent label, and for every real suffix length above 8 bits |
| C30-C33 | VecModel | bit arithmetic; select64 by testbit reasoning over all words |
| C34 R | VecModel | exact except at the last position of a vector that fills its last word |
| C35 R | SurfIter | true for real suffixes of 1-8 bits, false for every longer length (a key too short for the bits counts as zero; from 16 bits `constructRealSuffix` also indexes key[i] instead of key[level+i]); SurfSeekAll: Compare is the order of the kept bits, for every length |
| C36 | SurfIter | corollary of the Seek analysis, all filters |
| C37 R | SurfIter | Prev at a root prefix key panics; SurfIterCursor: no call panics in any sequence of the calls `call_ok` admits; C47 says exactly which calls panic |
| C38 R | SurfIter | SurfIterTop/SurfIterCursor: one invariant (on a path of the trie, or `dead`: off the end with the stale buffers both parts leave behind) kept by all five calls; false for SeekToFirst with a key that is a prefix of all |
| C39 R | SurfIter | SurfIterCmp: what each outcome of `compare` says about the key the iterator is on; false with a terminator in a sparse node |
| C40 R | SurfModel | SurfSize: nodes, labels and suffixes of the trie are counted against the keys, the builder's estimate is that count minus the uncounted prefix-key flags; `hint + 1` bits per key is proved, `hint` is refuted |
| C41 | SurfModel | SurfSize: the loop takes the last level whose estimate fits; estimates compared with sizes as in C40 |
| C42 | SurfModel | SurfSize: fewer than two labels per key, fewer nodes than keys, path bytes bounded by key bytes |
| C43 | ArtFine | ArtFineNoDel.v: while no Delete runs, node kinds and versions only move one way, a prefix length never grows, an index entry or child never becomes empty; every unprotected load of Put is shown in range from what it read before |
| C44 | ArtModel | ArtDelExact: nodes are exactly the forks of the key set (every inner node but the root has two entries); a descent compares at most eight path bytes and one child byte per node, so it ends at a leaf iff the key agrees there with that leaf's key |
| C45 | SurfModel, VecModel | SurfExact, SurfAll: induction over the descent; branchings of the key set are the nodes of the trie; stored suffixes are numbers to base 256 and bit windows of the hash, so equality of suffixes is equality of the kept bits (spec in SurfGetSpec) |
| C46 | SurfIter | SurfIterPrev: the climb of the dense Prev stops when `prevPos` meets position 0 or the root's terminator; SurfIterPrev2: those paths named by key indices (spec in SurfPrevSpec); SurfIterPrev3: iteration; SurfIterZero: without dense levels the sparse part moves, with stale buffers, and the iterator stays not Valid |
| C47 | SurfIter | SurfIterPrev3: the invariant of C38 kept by every call, with the exceptional outcomes of C46 |
| C48 | SurfIter | SurfSafe: whatever Seek did, the sparse part stands on some chain of nodes of the trie, one per level, each position inside its node, prefix lengths in range; SurfSafe2: every call keeps this; SurfSafe3: comparisons return, the one panic, call sequences (spec in SurfSafeSpec) |
| C49 | ArtFine | ArtSettled: without locks the field-level memory equals the group-level one, whose invariant then gives the sequential invariant; the sequential theorems of ArtTop and ArtDelExact are stated for any set of trees with that invariant closed under calls |
| C50, C51 | SurfIter | SurfIterSeek3: each Compare outcome as a function of the keys (SurfVerdict: the kept bits as numbers; SurfLevel, SurfIterLevel: levels and depths as functions of the keys), then the split of the leaves at the seek path. Vocabulary (`passedb`, `compared`, `overlap_answer`, `path_ok`) in SurfIterSpec. Not covered: Seek after leaving a sparse node with a terminator by an absent label, where the search runs into the next node |
| C52 | SurfIO | each reader looks only at the bytes it consumes (`reader` in SurfIOProofs); a truncated input that were accepted would leave a non-empty rest of the full one |
| C53 | SurfIO | what is left of the receiver (`stale`), and congruence of every call in the suffix words of a filter without suffixes |
| C54 | SurfIO | each WriteTo feeds pieces that make up the bytes of SurfMarshal (`feeds`) |
| C55 R | SurfIO | suffixVector.Unmarshal leaves the old words when the data has no suffixes, WriteTo writes them; exact condition and size |
| C56 | SurfModel | SurfReuse: the builder's levels are those of a forest of two roots, level by level; a dense row left over from the first Build holds one node, so a second root does not fit; a lookup that ends at the first root never uses the child numbering, which is off by one |
| C57 R | ArtRange | ArtRangeProofs: from the layout invariant of C07 and C09; the two smaller kinds keep their children in order of arrival, so the claim is false there; lastChild panics in the childless root (numChildren - 1 wraps) |
| C58 | ArtConc, ArtFine | ArtBesideProofs: the steps of a Get change no memory (an invariant on where a Get can be), so the steps of t are those it takes alone, which C16 covers (spec in ArtBeside) |
| C59 | ArtConc, ArtFine | ArtBlame: as long as nobody else changes a version word, everything the goroutine remembers and has yet to check stays as it was, and the node it is about to enter is still in the tree; carried over to single fields by the simulation of ArtFineProofs. Not for Delete (art.go:318) |
| C60 R | ArtFine | ArtLivelock: one round of 88 steps of two Puts computed with the version words as variables; it leads back to the same state with larger version words |
| C61 R | ArtWrap | ArtWrapBad: a Get sleeps between two loads from the root while 2^62 - 1 Puts bring the root's word back to what it was (induction on the number of Puts); ArtWrapSim: while fewer than 2^62 events happen during each operation, a word compared has moved by less than 2^64, so the machine with 64-bit words and ArtFine run in step |
| C62 | SurfAlias | SurfAliasProofs: Build commutes with replacing values, so every filter is an image of the one whose values are the positions of the keys; C17 and a count show that each position occurs once in the two arrays; SurfAliasTop: overwriting bytes in one slot is replacing one value |
| C63 R | SurfAlias | as C62; the slot after the slice belongs to another key |
| C64 R | SurfWord | each 32-bit operation returns what the unbounded one returns while its result is below 2^32; SurfWordBuild: the counters of a level only grow during Build, so bounds on the finished levels (from C17's invariant and the counts of nodes, items and leaves) bound every intermediate value; SurfWordLim bounds the vectors read by Get; witness: three values of 2^31 bytes (SurfWordBig) |
| C65 | SurfKeyMem | SurfKeyMemProofs: function by function, the visible part of each buffer is the list that SurfIter.v has; SurfKeyMemTop: programs, and C46 for the values visited |
| C66 R | SurfKeyMem | moves never touch the Iterator's own buffer; witnesses: Next turns a held [1] into [2], the next Key turns a held [3; 1] into [3; 2] |
| C67 R | SurfKeyMem | a store outside the visible part of the dense buffer, or an append that has no room there, leaves the list iterator as it is; witnesses: a store in [1; 1] and an append to the prefix key [1] change the next key |
| C68 | SurfWordIter | SurfWordIterProofs: each iterator function with 32-bit words returns what the unbounded one returns when that returns, while the positions of the iterator are items of the trie; a trie of height H with K keys has at most (H + 1) * K items, which is below 2^32; SurfWordIterTop: the invariant holds of new iterators and is kept by every call, so by induction on the calls both show the same; the order of iteration and HasOverlap follow from C46, C29 and C53; witness beyond the limit on values: three values of 2^31 bytes (SurfWordIterBig) |
| C69 R | SurfBuf | Unmarshal with places in the buffer and Unmarshal with copies do the same reads (SurfBufProofs), so the filter read from the places is the one of C24; slices that agree byte for byte give the same filter; two buffers of one length with equal counts have their slices at the same places, so a buffer overwritten by the bytes of the filter with other values makes it that filter, and Get returns the other values; refuted for every filter with values, not only for a witness |
| C70 R | SurfBufVal | all slices of the filter lie in the buffer one behind the other and the values last (SurfBufValProofs.refs_order); so overwriting bytes of an array of values in the buffer is overwriting them in the filter (view_part), to which C62 applies, and the buffer is then what Marshal writes for the changed filter (store_marshal); after an append both arrays hold other bytes of the same number, which is a filter with the same keys (C63's arrays_built). That an append leaves the buffer alone is refuted: for every returned value there are bytes that reach what follows the filter; Unmarshal may refuse the buffer afterwards. |
| C71 | ArtAlias | ArtAliasProofs: the calls of the tree are a run of ArtModel with numbers as values, so by C01 Get returns the number of the last Put (get_owner); the blocks follow the ideal call by call (runs_blocks); one number belongs to one key, and to none after a Put or Delete of the key (owner_inj, owner_gone) |
| C72 R | SurfWordMarshal | SurfWordMarshalProofs: the sizes of a built filter are bounded by its nodes, items and leaves (the bounds of C64), so no size of Marshal wraps and the bytes are those of C24; Unmarshal reads each field below 2^32, so it computes what the unbounded one does; beyond: Unmarshal never returns more than 2^32 - 1 bytes of values; witness: three values of 2^31 bytes (SurfWordBig) |
| C73 R | SurfCap | SurfCapProofs: no loop runs out of fuel: Select leaves the vector, the sparse descent consumes a byte of the key per level (nh_ls); a returned value is a slice of the array behind the header of its vector (value_in_array), and the sum of offset and size cannot wrap without a panic; where Get of SurfWord answers, the capacities make no difference (get_cap); witness: a marshalled filter whose values were cut off |

## Observations about the code made while proving

* Build panics on an empty key list, on `[""]` and on duplicate keys; a Builder cannot be reused.
* `constructRealSuffix` uses the wrong key byte for suffixes longer than eight bits; a hash
  suffix longer than 57 bits is stored as 0.
* `determineCutoffLevel` counts the prefix-key flags of one dense level too few, multiplies
  node counts by 512 in uint32, and reads a negative hint as a huge one.
* Key returns the dense iterator's own buffer for a key that ends in the dense levels. A key kept by
  the caller changes on the next move (C66), a byte stored in it appears in later keys, and
  `append(it.Key(), ...)` on a stored key that is a prefix of others overwrites the byte after
  that prefix in the next key (C67). Keys that end below the dense levels are in a buffer that the
  next call of Key reuses.
* Unmarshal keeps slices of the buffer it is given: whoever reuses the buffer changes the answers
  of the filter (C69); the documentation does not say so.
* Appending to a value that an unmarshalled filter returned overwrites the values of other keys
  and whatever follows the filter in the buffer (C70); `buf[a:b:b]` would prevent it.
* Unmarshal checks nothing: on damaged data Get can panic, and it can return bytes of the caller's
  array behind the slice given to Unmarshal, because the capacity of the value slice is not limited (C73).
* Offsets into the values are computed in uint32: with 4 GiB of values or more in one part of
  the filter, Get returns bytes of other keys' values (C64), and Unmarshal does not return the
  filter that was marshalled (C72).
* Sparse `Get` skips the path comparison when the key ends exactly at a node.
* `SeekToFirst`/`SeekToLast` never become valid on a filter without dense levels;
  `SeekToFirst` ignores a key that is a prefix of all others; `Prev` panics there.
* `prevPos` conflates position 0 with "none"; `distanceToNextSetBit` answers 0 at the last
  position of a 64-aligned vector.
* Sparse `Seek` skips keys when a stored key is a prefix of another: on {"a","ac","b"},
  Seek("ab") lands on "b", and HasOverlap has false negatives.
* After such a Seek `Key` can show bytes that begin no stored key: on {"a","ac","ac\x01","b…",…}
  without dense levels Seek("ab") shows "a\x09".
* Without dense levels SeekToFirst followed by Next can panic.
* Appending to a value returned by `Get` overwrites the value of another key: the slice's
  capacity is not limited.
* `Delete` of an absent key whose descent ends at another leaf retries for ever.
* Two Puts can keep each other from finishing for ever: one locks the parent and finds the
  node changed, the other locks the node and finds the parent changed; both release and retry.
* A Get suspended while one node is changed 2^62 times can miss a key stored all the time
  (the 64-bit version word is then the same again).
* `Put` can panic when a concurrent `Delete` merges nodes between two reads of prefixLen.

## Mutation testing of the theorems

seeded/LOG.jsonl records, for each deliberately wrong edit of the model made in a scratch
copy, which theorems stopped proving and which theorems were tightened as a result.

Small edits (a constant, a comparison, a negation) were also generated and built without being
logged one by one. Of 290 in the newer model files 287 broke the build and 3 did not; those 3 are
in the log. Of about 480 in the older model files, built against earlier versions of the proofs,
about 20 did not break the build and 2 gave no verdict. A broken build shows that some script failed, not that
a claim became false. The unbroken ones of the older files are not all logged. Many look, from reading
only, like values
that are overwritten or never read; this was not checked. Two in `p_setToLast` (SurfIter.v; the last key of a filter
without dense levels) were not examined to the end: which theorem constrains that function for
such filters is open.
