{"id": "C01", "title": "ART behaves as a map", "statement": "For every finite sequence of Put, Get and Delete calls issued by one goroutine on a tree returned by New(), every Get(k) returns (v,true) with v the value of the latest Put(k,v) not followed by a Delete(k), and (nil,false) when there is none; calls on other keys never influence it.", "quantifier": "all finite operation sequences, all keys and values (any byte strings, any lengths below 2^32)", "why_tests_cant": "the state space of node kinds, path compressions and key overlaps is unbounded; tests only sample sequences", "anchors": ["art/art.go:New,Get,Put,Delete,search,insert,remove", "art/node.go"]}
{"id": "C02", "title": "Put always returns and changes only its key", "statement": "For every tree reachable by single-goroutine use, every key and value, Put returns (no panic, no endless retry), afterwards Get of that key returns the new value, and Get of every other key is unchanged.", "quantifier": "all reachable trees, all keys and values", "why_tests_cant": "needs every interaction of leaf expansion, prefix split and node growth", "anchors": ["art/art.go:Put,insert", "art/node.go:insertChild,growAndInsert,updateOrExpand,insertSplitPrefix,prefixMismatch,fullKey"]}
{"id": "C03", "title": "Delete always returns", "statement": "For every tree reachable by single-goroutine use and every key, present or absent, Delete returns after finitely many retries.", "quantifier": "all reachable trees, all keys", "why_tests_cant": "non-termination cannot be observed by a test, and it depends on where an absent key diverges from stored keys", "anchors": ["art/art.go:Delete,remove"]}
{"id": "C04", "title": "Delete removes exactly one key", "statement": "Whenever Delete(k) returns on a tree reachable by single-goroutine use, Get(k) then reports absence and Get of every other key is unchanged; Delete never panics.", "quantifier": "all reachable trees, all keys", "why_tests_cant": "needs every combination of shrink, one-way compression and prefix-leaf promotion", "anchors": ["art/art.go:remove", "art/node.go:removeChild,removeChildAndShrink,compressChild,shouldShrink,shouldCompress"]}
{"id": "C05", "title": "No false hit or miss with long shared prefixes", "statement": "Get is exact even though a node stores at most 8 bytes of a compressed path: keys that agree with a stored key on the stored bytes but differ later are reported absent, and stored keys whose compressed path is arbitrarily long are found, also after splits and merges of such paths.", "quantifier": "all key sets and query keys, compressed paths of any length", "why_tests_cant": "lengths and split/merge positions are unbounded", "anchors": ["art/node.go:checkPrefix,prefixMismatch,insertSplitPrefix,compressChild,fullKey"]}
{"id": "C06", "title": "Keys that are prefixes of other keys, and the empty key, are ordinary keys", "statement": "A key that is a proper prefix of other stored keys (including the empty or nil key) can be stored, read, overwritten and deleted without affecting its extensions, and vice versa.", "quantifier": "all key sets containing prefix-related keys", "why_tests_cant": "prefix chains are unbounded and interact with every structural operation", "anchors": ["art/node.go:updatePrefixLeaf,updateOrExpand,removeChildAndShrink", "art/art.go"]}
{"id": "C07", "title": "Node size adaptation is invisible", "statement": "For each of the four node capacities, looking up a byte after any insertion, removal, growth or shrink returns exactly the child stored under that byte; no child is lost, duplicated or reachable under a wrong byte, including nodes with 256 children, whose 8-bit child count wraps to 0.", "quantifier": "all node contents, all bytes", "why_tests_cant": "the slot array, index table, free-slot mask and stale entries have astronomically many states", "anchors": ["art/node.go:node4,node16,node48,node256,allocSlot,freeSlot,findChild,insertChild,growAndInsert,removeChild,removeChildAndShrink"]}
{"id": "C08", "title": "Stored bytes are returned unchanged", "statement": "The key and value packed into one memory block by Put are read back byte for byte, for every key and value shorter than 2^32 bytes (including empty ones), independent of later changes to the caller's slices.", "quantifier": "all byte strings below 2^32 bytes", "why_tests_cant": "the packed layout's offsets depend on unbounded lengths", "anchors": ["art/node.go:newLeaf,leaf.key,leaf.value,leaf.match"]}
{"id": "C09", "title": "Space is given back", "statement": "After any single-goroutine operation sequence every inner node other than the root has at least two entries (counting the key that ends at the node), every node respects its kind's minimum and maximum occupancy, and when all keys have been deleted the tree is a single empty smallest-kind root.", "quantifier": "all finite operation sequences", "why_tests_cant": "a leak shows only after particular delete orders", "anchors": ["art/node.go:shouldShrink,removeChildAndShrink,compressChild,shouldCompress"]}
{"id": "C10", "title": "Lookup depth is bounded by key length", "statement": "Get(k), Put(k,_) and each attempt of Delete(k) visit at most len(k)+1 inner nodes, whatever is stored.", "quantifier": "all reachable trees and keys", "why_tests_cant": "a worst-case bound over all trees", "anchors": ["art/art.go:search,insert,remove"]}
{"id": "C11", "title": "A node has at most one writer", "statement": "For any number of goroutines and any interleaving of their atomic steps, no two goroutines hold the same node's lock at once, only the holder changes the node, and an unlock always pairs with the holder's own lock.", "quantifier": "all numbers of goroutines, all schedules", "why_tests_cant": "schedules are unbounded", "anchors": ["art/lock.go", "art/art.go"]}
{"id": "C12", "title": "A validated optimistic read saw a quiescent node", "statement": "If a goroutine reads a node's version (unlocked, not obsolete), reads fields, and later finds the same version, then the node was not modified, locked or retired at any moment in between and the values read are the node's contents; a retired node never becomes usable again.", "quantifier": "all numbers of goroutines, all schedules", "why_tests_cant": "the ABA-style failures need rare interleavings", "anchors": ["art/lock.go:rLock,rUnlock,lockCheck,upgradeToLock,unlock,unlockObsolete,waitUnlock"]}
{"id": "C13", "title": "Concurrent operations are linearizable", "statement": "For any number of goroutines calling Get, Put and Delete concurrently on one tree and any interleaving, every operation that returns appears to take effect atomically at one instant between its call and its return: results agree with a sequential map executed in that order.", "quantifier": "all numbers of goroutines, operations, keys and schedules", "why_tests_cant": "linearizability quantifies over all interleavings and histories", "anchors": ["art/art.go", "art/node.go", "art/lock.go"]}
{"id": "C14", "title": "Concurrent use never panics", "statement": "No interleaving of Get, Put and Delete calls on well-formed inputs makes any of them panic.", "quantifier": "all schedules", "why_tests_cant": "needs a specific interleaving between unprotected reads and a concurrent structural change", "anchors": ["art/art.go:insert,search,remove", "art/node.go:prefixMismatch,firstChild"]}
{"id": "C15", "title": "No deadlock", "statement": "In every reachable state in which some goroutine is waiting for a node lock, some goroutine holding a lock is able to take a step; lock waiting is never cyclic.", "quantifier": "all schedules, any number of goroutines", "why_tests_cant": "deadlock needs an unlucky interleaving", "anchors": ["art/node.go:compressChild", "art/lock.go:lock,waitUnlock"]}
{"id": "C16", "title": "An operation running alone finishes", "statement": "From any reachable state in which no lock is held, Get and Put run by one goroutine without interference return without a retry being needed more than finitely often.", "quantifier": "all reachable states, all keys", "why_tests_cant": "livelock is unobservable by tests", "anchors": ["art/art.go"]}
{"id": "C17", "title": "SuRF has no false negatives and returns the stored value", "statement": "For every strictly increasing list of keys accepted by Build, with values at least valueSize long, every suffix configuration of at most 64 bits and every bitsPerKeyHint, Get(keys[i]) on the built filter returns (vals[i][:valueSize], true).", "quantifier": "all key sets, values, suffix configurations, hints", "why_tests_cant": "a filter's no-false-negative guarantee is universal over key sets and layouts", "anchors": ["surf/builder.go:Build", "surf/surf.go:Get", "surf/louds_dense.go:Get", "surf/louds_sparse.go:Get"]}
{"id": "C18", "title": "Get never panics on a built filter", "statement": "For every filter returned by Build and every query key of any length, Get returns without panicking.", "quantifier": "all built filters, all query keys", "why_tests_cant": "out-of-range accesses depend on boundary positions of bit vectors", "anchors": ["surf/surf.go:Get"]}
{"id": "C19", "title": "A hit is always backed by a stored key", "statement": "If Get(q) returns (v,true) then v is the value of a stored key s such that q and s agree on s's distinguishing prefix (the shortest prefix of s that no other stored key has, or all of s), or q itself is a prefix of s ending inside a compressed path.", "quantifier": "all built filters, all query keys", "why_tests_cant": "soundness over all absent keys cannot be sampled", "anchors": ["surf/surf.go:Get", "surf/bits_vec.go:CheckEquality"]}
{"id": "C20", "title": "The dense/sparse split is only a space/speed choice", "statement": "For the same keys, values and suffix configuration, Get(q) returns the same answer for every bitsPerKeyHint, for every query q.", "quantifier": "all inputs, all pairs of hints, all queries", "why_tests_cant": "two encodings must agree on all queries", "anchors": ["surf/builder.go:determineCutoffLevel,buildDense", "surf/louds_dense.go", "surf/louds_sparse.go"]}
{"id": "C21", "title": "Suffix bits are stored and read back exactly", "statement": "For every suffix length up to 64 bits and any number of keys, the i-th suffix read back equals the i-th suffix written, whatever word boundary it straddles, and a stored key always passes its own suffix check.", "quantifier": "all suffix lengths, counts and contents", "why_tests_cant": "alignment cases and lengths multiply", "anchors": ["surf/builder.go:insertSuffix", "surf/bits_vec.go:suffixVector.read,CheckEquality,constructSuffix"]}
{"id": "C22", "title": "Build accepts every non-empty strictly increasing key list", "statement": "Build returns normally (no panic, no endless recursion) for every non-empty strictly increasing list of keys with long enough values, any hint, and suffix lengths totalling at most 64.", "quantifier": "all key lists", "why_tests_cant": "corner cases such as a single empty key are easily missed by samples", "anchors": ["surf/builder.go:Build,buildNodes"]}
{"id": "C23", "title": "A Builder can be used again", "statement": "Calling Build a second time on the same Builder yields a filter for the second key list, as a fresh Builder would.", "quantifier": "all pairs of key lists", "why_tests_cant": "history dependence over all builder states", "anchors": ["surf/builder.go:Builder,Build"]}
{"id": "C24", "title": "Marshal and Unmarshal are inverse", "statement": "For every filter returned by Build and any trailing bytes, Unmarshal applied to its serialized form restores a filter with identical contents, hence identical answers to every query.", "quantifier": "all built filters, all trailing bytes", "why_tests_cant": "a codec law over all sizes and paddings", "anchors": ["surf/surf.go:Marshal,WriteTo,Unmarshal", "surf/bits_vec.go"]}
{"id": "C25", "title": "MarshalSize is exact", "statement": "For every filter returned by Build, MarshalSize() equals the number of bytes Marshal() produces and WriteTo writes, and is a multiple of 8; MarshalNoValueSize() equals the offset at which the values start.", "quantifier": "all built filters", "why_tests_cant": "padding arithmetic over all sizes", "anchors": ["surf/surf.go:MarshalSize,MarshalNoValueSize,Marshal"]}
{"id": "C26", "title": "Forward iteration visits every key once in order", "statement": "On every filter returned by Build, SeekToFirst followed by Next while Valid visits exactly one position per stored key, in increasing key order, Key() being the stored key's distinguishing prefix and Value() its value.", "quantifier": "all built filters", "why_tests_cant": "the order must hold for all tries and both encodings", "anchors": ["surf/surf.go:SeekToFirst,Next,Valid,Key,Value"]}
{"id": "C27", "title": "Backward iteration visits every key once in reverse order", "statement": "On every filter returned by Build, SeekToLast followed by Prev while Valid visits exactly one position per stored key, in decreasing key order, with that key's distinguishing prefix and value.", "quantifier": "all built filters", "why_tests_cant": "as C26, mirrored", "anchors": ["surf/surf.go:SeekToLast,Prev", "surf/louds_dense.go:prevPos"]}
{"id": "C28", "title": "Seek is a lower bound", "statement": "On every filter returned by Build and for every query q, Seek(q) never skips a stored key >= q: it stops at the smallest stored key s >= q, or at its immediate predecessor when the predecessor's stored information cannot tell it from q; it is invalid only if every stored key is < q. The returned flag is set when it stops at a smaller key, and only when the key reached cannot be told from q or begins with q.", "quantifier": "all built filters, all queries", "why_tests_cant": "absent queries fall in infinitely many gaps", "anchors": ["surf/surf.go:Seek", "surf/louds_dense.go:Seek", "surf/louds_sparse.go:Seek"]}
{"id": "C29", "title": "HasOverlap has no false negatives", "statement": "On every filter returned by Build, if some stored key lies in [start,end] (or [start,end) when includeEnd is false) then HasOverlap(start,end,includeEnd) returns true.", "quantifier": "all built filters, all ranges", "why_tests_cant": "a filter's range guarantee is universal over ranges and key sets", "anchors": ["surf/surf.go:HasOverlap,compare"]}
{"id": "C30", "title": "Rank counts the set bits up to a position", "statement": "For bit vectors of any length built from any number of levels, the rank index returns the exact number of set bits at positions 0..pos, for both block sizes.", "quantifier": "all bit vectors, all positions", "why_tests_cant": "block and word boundary cases are unbounded", "anchors": ["surf/bits_vec.go:rankVector,rankVectorDense.Rank,rankVectorSparse.Rank", "surf/bits.go:popcountBlock"]}
{"id": "C31", "title": "Select finds the r-th set bit", "statement": "For bit vectors of any length whose first bit is set, the select index returns the position of the r-th set bit for every r between 1 and the number of set bits.", "quantifier": "all bit vectors with bit 0 set, all ranks", "why_tests_cant": "sampling boundaries and word boundaries interact", "anchors": ["surf/bits_vec.go:selectVector.Init,Select"]}
{"id": "C32", "title": "select64 is correct in both implementations", "statement": "For every 64-bit word x and 1 <= k <= popcount(x), the broadword routine and the BMI2 instruction sequence both return the zero-based position of the k-th set bit of x, so results do not depend on the CPU.", "quantifier": "all 2^64 words and all valid k", "why_tests_cant": "2^64 inputs", "anchors": ["surf/bits.go:select64Broadword,selectInByte", "surf/bits_amd64.s"]}
{"id": "C33", "title": "Concatenated bit vectors keep every level's bits", "statement": "The vector built from per-level bit arrays reads, at the position offset(level)+i, exactly bit i of that level, for any number of levels of any lengths, and has no set bit elsewhere.", "quantifier": "all level counts, lengths and contents", "why_tests_cant": "bit shifts across word boundaries", "anchors": ["surf/bits_vec.go:bitVector.Init,IsSet"]}
{"id": "C34", "title": "Distance to the neighbouring set bit is exact", "statement": "For every bit vector and position, the forward scan returns the distance to the next set bit (or to the end of the vector), and the backward scan the distance to the previous set bit (or to one before the beginning).", "quantifier": "all bit vectors, all positions", "why_tests_cant": "word boundary cases", "anchors": ["surf/bits_vec.go:DistanceToNextSetBit,DistanceToPrevSetBit"]}
{"id": "C35", "title": "Suffix comparison respects key order", "statement": "With real (or mixed) suffixes, when a stored key and a query agree on the stored key's distinguishing prefix, the comparison used by Seek and HasOverlap never reports 'less' for a stored key greater than or equal to the query nor 'greater' for one less than or equal to the query.", "quantifier": "all keys, queries, suffix lengths", "why_tests_cant": "ordering over all byte strings", "anchors": ["surf/bits_vec.go:suffixVector.Compare,constructRealSuffix"]}
{"id": "C36", "title": "Seek to a stored key finds it", "statement": "On every filter returned by Build, Seek(keys[i]) makes the iterator valid, with Key() the distinguishing prefix of keys[i] and Value() its value.", "quantifier": "all built filters, all stored keys", "why_tests_cant": "exactness over all tries", "anchors": ["surf/surf.go:Seek"]}
{"id": "C37", "title": "Iterator calls never panic", "statement": "On every filter returned by Build, every sequence of Seek, SeekToFirst, SeekToLast, Next and Prev calls on an iterator, with Key and Value called while Valid, completes without panicking.", "quantifier": "all built filters, all call sequences", "why_tests_cant": "unbounded sequences over unbounded tries", "anchors": ["surf/surf.go:Iterator", "surf/louds_dense.go:denseIter", "surf/louds_sparse.go:sparseIter"]}
{"id": "C38", "title": "An iterator behaves as a cursor over the stored keys", "statement": "After any sequence of Seek, SeekToFirst, SeekToLast, Next and Prev calls in any order, the iterator stands on a stored key or is not Valid: Next moves it to the next stored key in byte order, Prev to the previous one, each makes it not Valid at the end of the keys and leaves it so when it is not Valid; Key and Value show the stored key's distinguishing prefix and its value.", "quantifier": "all built filters, all call sequences", "why_tests_cant": "the number of interleavings is unbounded and the faulty ones cross between the two trie encodings", "anchors": ["surf/surf.go:Iterator", "surf/louds_dense.go:denseIter", "surf/louds_sparse.go:sparseIter"]}
{"id": "C39", "title": "A positive HasOverlap answer is backed by a stored key", "statement": "If HasOverlap(start, stop, includeEnd) returns true then there is a stored key which lies in the range as far as the stored part of it tells: it is not less than start or cannot be told from start, and it is not beyond stop or cannot be told from stop.", "quantifier": "all built filters, all ranges", "why_tests_cant": "needs every range over every key set; an always-true answer passes all no-false-negative tests", "anchors": ["surf/surf.go:HasOverlap", "surf/surf.go:Iterator.compare"]}
{"id": "C40", "title": "The size hint of Build is honoured", "statement": "If Build(keys, vals, bitsPerKeyHint) gives the filter any dense level, then the bits of the encoded trie (labels, child flags, node boundaries, prefix-key flags, suffixes, path prefixes; not the rank/select tables, headers, padding and values) are at most bitsPerKeyHint per key.", "quantifier": "all strictly increasing key lists, all suffix configurations, all non-negative hints within the integer ranges the code computes with", "why_tests_cant": "the estimate is recomputed level by level from counts; an off-by-one or overflow shows up only for particular shapes and hints", "anchors": ["surf/builder.go:Build", "surf/builder.go:determineCutoffLevel", "surf/builder.go:denseSizeNoSuffix", "surf/builder.go:sparseSizeNoSuffix"]}
{"id": "C41", "title": "Build uses as many dense levels as the hint allows", "statement": "For the same keys and values, a filter with more dense levels than the one Build(\u2026, hint) returns takes more than hint bits per key; and a larger non-negative hint never gives fewer dense levels.", "quantifier": "all strictly increasing key lists, all suffix configurations, all pairs of non-negative hints within the integer ranges", "why_tests_cant": "a choice that is needlessly small, or not monotone, still gives correct answers to every query", "anchors": ["surf/builder.go:determineCutoffLevel", "surf/builder.go:denseSizeNoSuffix", "surf/builder.go:sparseSizeNoSuffix"]}
{"id": "C42", "title": "A filter without dense levels is linear in the number of keys", "statement": "A filter without dense levels takes at most 22 + hashSuffixLen + realSuffixLen bits per key for the encoded trie, plus at most the bytes of the keys for compressed paths.", "quantifier": "all strictly increasing key lists, all suffix configurations, all hints", "why_tests_cant": "a worst-case bound over all key sets", "anchors": ["surf/builder.go:buildNodes", "surf/louds_sparse.go:Init"]}
{"id": "C43", "title": "Concurrent use without overlapping Put and Delete never panics", "statement": "In every execution in which no Put is running while a Delete is running, no call of Get, Put or Delete panics. Puts may overlap with Puts and Gets, and Deletes with Deletes and Gets, in any way, one field access at a time.", "quantifier": "all schedules and histories in which no Put call overlaps a Delete call", "why_tests_cant": "Put walks nodes without holding their locks, so the absence of an out-of-range index depends on every interleaving of its loads with the stores of other calls", "anchors": ["art/art.go:insert,search,remove", "art/node.go:prefixMismatch,fullKey,firstChild"]}
{"id": "C44", "title": "Which Deletes of absent keys never return", "statement": "In every tree reachable by single-goroutine use, Delete of an absent key k retries for ever if and only if there is a stored key k' such that k is longer than the last fork of k' and agrees with k' on every compared byte up to and including the byte after that fork. A fork of k' is the empty path or the exact common prefix of two stored keys, and the compared bytes are the nine bytes that follow each fork. In all other cases Delete returns. For keys of at most nine bytes the condition is that some non-empty prefix of k belongs to exactly one stored key.", "quantifier": "all reachable trees, all absent keys", "why_tests_cant": "non-termination cannot be observed by a test, and the condition depends on the forks of the whole key set", "anchors": ["art/art.go:Delete,remove", "art/node.go:checkPrefix"]}
{"id": "C45", "title": "Exactly which queries hit", "statement": "On a built filter Get(q) returns the value v if and only if v is the value of a stored key k such that one of these holds. (1) q is k. (2) k is not a proper prefix of another stored key, q begins with the distinguishing prefix of k, and what the filter keeps of k beyond that prefix agrees with q: the hash bits 7 to 6+h of the 64-bit hash (none when h exceeds 57), and the r key bits (the first byte and the rest after the distinguishing prefix, the whole bytes in between at their index in the key; all zero when the key is too short; without hash bits all-zero key bits agree with every query). (3) q ends right after a branching of the stored keys or is empty, all stored keys that extend q extend k, k is a proper prefix of another stored key, the kept hash bits agree, and the branchings above q are at least as many as the dense levels. (4) k is the only key, starts with byte 255, q is empty, and the kept bits agree. For queries that are not proper prefixes of stored keys only (2) remains.", "quantifier": "all key lists, values, hash functions, hash and real suffix lengths with h+r at most 64, size hints and queries", "why_tests_cant": "the exact set of false positives depends on every bit of every stored suffix; sampling queries cannot show that no other query hits", "anchors": ["surf/surf.go:Get", "surf/bits_vec.go:CheckEquality,constructHashSuffix,constructRealSuffix,constructMixedSuffix"]}
{"id": "C46", "title": "Exactly which keys iteration visits", "statement": "On a built filter without dense levels SeekToFirst and SeekToLast return and leave the iterator not Valid. With a dense level, SeekToFirst followed by Next while Valid visits, in increasing order and once each, exactly the stored keys other than one that is a prefix of all of at least two stored keys; it is complete if and only if there is a dense level and no such key. SeekToLast followed by Prev while Valid visits, in decreasing order and once each, exactly the keys from index m on, where m is the greatest index such that m = 0, or the key at m-1 is a prefix of all keys, or the keys up to m-1 and not the key at m continue the common prefix of all keys with byte 0, or m = 2, there are two dense levels, the first key is a prefix of all, all others continue it with byte 0 and the second is a prefix of those; it is complete if and only if there is a dense level and no such index above 0. Key() and Value() show each visited key's distinguishing prefix and value.", "quantifier": "all key lists, values, suffix configurations, size hints and iterators of the filter", "why_tests_cant": "which keys are silently left out depends on the whole key set and the number of dense levels", "anchors": ["surf/surf.go:SeekToFirst,SeekToLast,Next,Prev,decrDenseIter", "surf/louds_dense.go:Prev,SetToFirstInRoot,MoveToRightMostKey"]}
{"id": "C47", "title": "Where every call moves the iterator and which calls panic", "statement": "After any sequence of Next, Prev, SeekToFirst and SeekToLast (the last two with a dense level) and Seek (for suffixes of any length, to any query that does not leave a stored prefix key below the dense levels by a byte no stored key has there; it goes to the first key that the stored information does not place before the query) on a new iterator, the iterator stands on a stored key index or is not Valid. Next moves from i to i+1, or to not Valid at the end; Prev panics if i = 0, there is a dense level and the key is a prefix of all keys, ends the iteration at exactly the indices named in C46, and moves to i-1 otherwise; SeekToLast moves to the last key, SeekToFirst to the first one or, if that is a prefix of all others, to the second; Next and Prev leave a not Valid iterator not Valid. No other call panics.", "quantifier": "all built filters, all sequences of these calls", "why_tests_cant": "there are unboundedly many call sequences, and the stale buffers earlier calls leave behind matter only after particular ones", "anchors": ["surf/surf.go:Iterator", "surf/louds_dense.go:denseIter", "surf/louds_sparse.go:sparseIter"]}
{"id": "C48", "title": "Iterator calls and range queries always return", "statement": "On any built filter, for any sequence of Seek (to any byte string), SeekToFirst, SeekToLast, Next and Prev on a new iterator, where on a filter without dense levels Next and Prev are not called between a SeekToFirst or SeekToLast and the next Seek, every call returns, and Key() and Value() return whenever the iterator is Valid, with one exception: Prev panics exactly when the filter has a dense level and the key shown is a stored key that is a prefix of all of at least two stored keys. HasOverlap returns for all bounds. (Without that restriction a SeekToFirst followed by Next can panic; and for queries that leave a stored prefix key by a byte no key has there, Key() can show bytes that begin no stored key.)", "quantifier": "all built filters, any suffix lengths, all call sequences, all queries and bounds", "why_tests_cant": "queries that mis-navigate put the iterator into states no ordinary use reaches; absence of panics must be shown for all of them and everything called afterwards", "anchors": ["surf/surf.go:Iterator,HasOverlap", "surf/louds_dense.go:denseIter", "surf/louds_sparse.go:sparseIter"]}
{"id": "C49", "title": "After concurrent use the tree is an ordinary tree", "statement": "At any moment of any concurrent use at which no node is locked (in particular when all calls have returned, also if a Put has panicked), the tree answers every further single-goroutine sequence of Get, Put and Delete exactly like the map that some order of the operations consistent with the calls and returns leads to, a panicked Put having had no effect; Put returns, Delete of a stored key returns, Delete of an absent key returns exactly in the cases of C44; every node respects the occupancy bounds of C09, an empty tree is one childless root, and every operation visits at most length of the key plus one nodes; and every allocated node is either retired or reachable from the root. At any other moment every node that is neither locked nor retired respects the occupancy bounds.", "quantifier": "all executions of any number of goroutines at field granularity, all later call sequences", "why_tests_cant": "the tree left behind depends on the interleaving; a damaged or leaked node shows only under particular schedules and later calls", "anchors": ["art/art.go:Get,Put,Delete", "art/lock.go", "art/node.go"]}
{"id": "C50", "title": "Exactly where Seek goes", "statement": "On every filter returned by Build, for suffixes of every kind and length and for every query q that does not leave a stored prefix key below the dense levels by a byte no stored key has there, the stored keys split into those taken to be less than q and the rest, and Seek(q) followed by Next visits exactly the rest, in order (it is not Valid if there is none). A key counts as less than q exactly if it is less in byte order, except that when q begins with the key's distinguishing prefix and the key is not itself a prefix of another key, only the real suffix bits kept of the key decide, compared as numbers with those of q, with all zero bits for a key or query too short to have them. In that case the returned flag says whether the bits are equal; otherwise, where a key is reached, the flag is true exactly if q ends where the stored keys branch (or is empty, for a single key) within the dense levels, and then the key reached begins with q.", "quantifier": "all built filters, all suffix lengths, all such queries", "why_tests_cant": "long suffixes misorder keys only for particular lengths and bytes; the exact split is a statement on all keys and queries", "anchors": ["surf/surf.go:Seek", "surf/louds_dense.go:Seek", "surf/louds_sparse.go:Seek", "surf/bits_vec.go:suffixVector.Compare"]}
{"id": "C51", "title": "Exactly what HasOverlap answers", "statement": "On every filter returned by Build, for suffixes of every kind and length, every start as in C50 and every stop, HasOverlap(start, stop, includeEnd) returns the answer determined by the first stored key that C50 does not place before start: false if there is none; otherwise whether this key is ordered before stop or cannot be told from it (or equals it and includeEnd is set), where a key below the dense levels has its suffix bits compared with those of the part of stop below these levels, and a stop that ends just at the first level below them counts as equal to a key that extends it and is a prefix of another key.", "quantifier": "all built filters, all suffix lengths, all ranges with such a start", "why_tests_cant": "both directions of a filter's answer over all ranges", "anchors": ["surf/surf.go:HasOverlap", "surf/surf.go:Iterator.compare", "surf/louds_dense.go:Compare", "surf/louds_sparse.go:Compare"]}
{"id": "C52", "title": "Truncated data is refused, trailing bytes are ignored", "statement": "For every filter returned by Build, Unmarshal of any proper prefix of its serialized form panics instead of yielding a filter, also when only padding is missing and whatever the receiver held before. For any data that Unmarshal accepts, appending bytes does not change the resulting filter.", "quantifier": "all built filters, all cut points; all accepted byte strings and all extensions", "why_tests_cant": "every cut point of every serialized filter", "anchors": ["surf/surf.go:Unmarshal", "surf/bits_vec.go:Unmarshal", "surf/louds_dense.go:Unmarshal", "surf/louds_sparse.go:Unmarshal"]}
{"id": "C53", "title": "Unmarshal into a used filter replaces what it answers", "statement": "For every filter returned by Build and every receiver, whatever the receiver was built or unmarshalled from before: after Unmarshal of the serialized filter (followed by any bytes) the receiver answers every Get, HasOverlap and iterator call as the serialized filter does. Its contents are identical exactly if the data has suffixes or the receiver had no suffix words.", "quantifier": "all built filters, all previous contents of the receiver", "why_tests_cant": "all histories of the receiver", "anchors": ["surf/surf.go:Unmarshal", "surf/bits_vec.go:suffixVector.Unmarshal"]}
{"id": "C54", "title": "WriteTo reports the writer's error and stops", "statement": "For every writer, WriteTo hands it the serialized form piece by piece in order, stops at the first Write that returns an error and returns that error, and returns nil if no Write fails. A writer with room for n bytes has received exactly the first n bytes, and WriteTo returns an error exactly if the serialized form is longer than n.", "quantifier": "all filters, all writers, all n", "why_tests_cant": "every point of failure of an arbitrary writer", "anchors": ["surf/surf.go:WriteTo", "surf/louds_dense.go:WriteTo", "surf/louds_sparse.go:WriteTo", "surf/bits_vec.go:WriteTo"]}
{"id": "C55", "title": "Marshal after Unmarshal gives the same bytes", "statement": "For every filter returned by Build and every receiver, Marshal after Unmarshal of the serialized filter into the receiver gives the serialized form back, whatever the receiver held before.", "quantifier": "all built filters, all previous contents of the receiver", "why_tests_cant": "all histories of the receiver", "anchors": ["surf/surf.go:Unmarshal,Marshal", "surf/bits_vec.go:suffixVector.Unmarshal,WriteTo"]}
{"id": "C56", "title": "What a second Build on the same Builder gives", "statement": "For two key lists of at least two keys each (together fewer than 2^32 bytes): the second Build on the Builder that built the first filter returns if the first filter has no dense level; if it has one, the second Build panics or returns a filter without dense levels. A returned filter answers Get as the first filter does for every non-empty query whose first byte begins at most one key of the first list, so every key of the second list whose first byte begins no key of the first list is reported absent.", "quantifier": "all pairs of key lists, values, suffix settings and size hints", "why_tests_cant": "history dependence over all builder states and all key lists", "anchors": ["surf/builder.go:Build,buildNodes,buildDense,initDenseVectors", "surf/louds_dense.go:Get", "surf/louds_sparse.go:Get"]}
{"id": "C57", "title": "firstChild and lastChild are the ends of a node", "statement": "For every tree reached by any sequence of calls and every inner node of it: the first-child and last-child helpers return the child of the least and of the greatest byte, and panic in no node.", "quantifier": "all reachable trees, all nodes", "why_tests_cant": "all histories of node growth, shrinking and removal", "anchors": ["art/range.go:firstChild,lastChild"]}
{"id": "C58", "title": "Gets hold nobody up", "statement": "A Get or Put called in any state in which no node is locked returns after finitely many of its own steps, whatever Gets other goroutines start, continue or finish at the same time, and however these are interleaved with it; operations of further goroutines may be stopped anywhere outside their critical sections.", "quantifier": "all reachable states, all keys and values, any number of goroutines, all interleavings with Gets", "why_tests_cant": "all interleavings, unbounded number of concurrent Gets", "anchors": ["art/art.go:Get,Put,search,insert", "art/lock.go"]}
{"id": "C59", "title": "A Get or Put starts over only because of another operation", "statement": "Whenever a Get or Put returns to the start of its retry loop, another goroutine has locked or unlocked some node since the Get or Put was last at the start of its loop.", "quantifier": "all executions of any number of goroutines, all keys and values", "why_tests_cant": "all interleavings; the retries are not visible in results", "anchors": ["art/art.go:Get,Put,search,insert", "art/lock.go:rLock,rUnlock,upgradeToLock,rUnlockWithNode,upgradeToLockWithNode", "art/node.go:fullKey,prefixMismatch"]}
{"id": "C60", "title": "Of several operations in progress at least one returns", "statement": "In every infinite execution in which each of finitely many Puts in progress keeps taking steps, one of them returns.", "quantifier": "all infinite executions of the Puts in progress", "why_tests_cant": "infinite executions; a livelock needs a particular schedule that repeats for ever", "anchors": ["art/art.go:Put,insert", "art/lock.go:rUnlockWithNode,upgradeToLockWithNode"]}
{"id": "C61", "title": "Concurrent operations stay linearizable however often nodes are locked", "statement": "Every execution of concurrent Get, Put and Delete is linearizable with version words of 64 bits, which repeat after 2^62 changes of a node: in particular a Get called after a Put of a key that nobody deletes returns a value.", "quantifier": "all executions of any number of goroutines, of any length", "why_tests_cant": "the version of one node has to change 2^62 times while a single operation is suspended", "anchors": ["art/lock.go:waitUnlock,rLock,rUnlock,upgradeToLock,unlock,unlockObsolete", "art/node.go:version", "art/art.go:Get,search"]}
{"id": "C62", "title": "Writing into a returned value changes the value of one key and nothing else", "statement": "A value returned by Get or by an iterator's Value shares memory with the filter. Assigning to one of its bytes leaves the filter exactly as if Build had been given the same keys, with that byte changed in the value of the key that was hit: a later Get of that key sees the new byte, every other stored key keeps its value, and which queries hit does not change.", "quantifier": "all key lists accepted by Build, all values, suffix settings and size hints, every query that hits and every iterator position, every byte position and new byte", "why_tests_cant": "the effect on all other keys and queries, for every layout of the values", "anchors": ["surf/bits_vec.go:valueVector.Init,valueVector.Get", "surf/louds_dense.go:Get,Value", "surf/louds_sparse.go:Get,Value", "surf/surf.go:Get,Value"]}
{"id": "C63", "title": "Appending to a returned value leaves the filter as it was", "statement": "After the caller appends bytes to a value returned by Get, every Get on the filter returns what it returned before.", "quantifier": "all filters made by Build, all queries that hit, all appended bytes", "why_tests_cant": "the effect shows on a key other than the one looked up, and depends on the order of the values in memory", "anchors": ["surf/bits_vec.go:valueVector.Init,valueVector.Get", "surf/surf.go:Get"]}
{"id": "C64", "title": "Stored keys are found with 32-bit counters", "statement": "With positions, offsets, sizes and ranks kept in 32-bit words as in the code, Build returns a filter and Get of each stored key on it returns that key's value.", "quantifier": "all valid sorted key lists and values, all value sizes, suffix settings and size hints", "why_tests_cant": "the words overflow only with millions of keys or gigabytes of values, and nothing but a wrong value shows it", "anchors": ["surf/bits_vec.go:valueVector.Get,valueVector.Init,rankVector.init,selectVector.Init,prefixVec.Init", "surf/builder.go:Build,buildNodes,buildDense,insertSuffix", "surf/louds_dense.go:Init,Get,suffixPos", "surf/louds_sparse.go:Init,Get", "surf/surf.go:Get"]}
{"id": "C65", "title": "A key read at once is right although buffers are reused", "statement": "The iterator builds its keys in buffers that it truncates and appends to in place and of which Key returns slices. However append chooses capacities, a program that calls SeekToFirst, SeekToLast, Seek, Next, Prev and Key in any order and reads each key before its next call on the iterator reads the bytes it would read if Key always returned a fresh copy of a freshly built key; in particular iteration in either direction visits the keys and values that C46 names.", "quantifier": "all filters, all sequences of calls that return, all growth policies of append", "why_tests_cant": "stale bytes in a reused array show only for particular sequences of long and short keys and particular capacities", "anchors": ["surf/surf.go:Iterator.Key", "surf/louds_dense.go:denseIter.append,setAt,truncate,Key", "surf/louds_sparse.go:sparseIter.append,setAt,Key"]}
{"id": "C66", "title": "A returned key keeps its bytes while the iterator moves", "statement": "The bytes of a slice returned by Key stay as they were through later calls on the iterator.", "quantifier": "all filters made by Build, all iterator positions, all later calls", "why_tests_cant": "tests copy or compare each key before moving on", "anchors": ["surf/surf.go:Iterator.Key", "surf/louds_dense.go:denseIter.Key,setAt"]}
{"id": "C67", "title": "The caller owns a returned key", "statement": "Storing bytes in a slice returned by Key, or appending to it, does not change the keys that later calls of Key return.", "quantifier": "all filters made by Build, all sequences of calls, stores and appends", "why_tests_cant": "the damage shows in a later key, and for appends only after a stored key that is a prefix of others", "anchors": ["surf/surf.go:Iterator.Key", "surf/louds_dense.go:denseIter.Key,Next,MoveToLeftMostKey"]}
{"id": "C68", "title": "Iterators and HasOverlap are right with 32-bit counters", "statement": "On a filter built from fewer than 2^23 keys, each shorter than 65535 bytes, with fewer than 2^32 bytes of values, and for queries shorter than 2^29 bytes: with positions, ranks, offsets and levels kept in 32-bit words as in the code, every sequence of Seek, SeekToFirst, SeekToLast, Next and Prev calls that returns with unbounded counters returns and shows the same Valid, Key, Value and Seek result after each call, and HasOverlap gives the same answer.", "quantifier": "all filters made by Build within the limits, all sequences of calls, all queries", "why_tests_cant": "a wrapped word shows only with millions of keys, very deep tries or gigabytes of values, as a wrong key or value", "anchors": ["surf/surf.go:Iterator,HasOverlap", "surf/louds_dense.go:denseIter", "surf/louds_sparse.go:sparseIter", "surf/bits_vec.go:rankVector,selectVector,labelVector,suffixVector,valueVector,prefixVec"]}
{"id": "C69", "title": "The buffer given to Unmarshal may be reused", "statement": "After Unmarshal has returned, changing the bytes of the buffer that was given to it does not change the answers of the filter.", "quantifier": "all filters made by Build and marshalled, all changes of the buffer", "why_tests_cant": "tests unmarshal from a buffer that nobody touches again; a program that reads the next block into the same buffer gets wrong answers without any error", "anchors": ["surf/surf.go:Unmarshal", "surf/bits_vec.go:valueVector.Unmarshal,rankVector.Unmarshal,selectVector.Unmarshal,labelVector.Unmarshal,prefixVec.Unmarshal,suffixVector.Unmarshal", "surf/bits.go:bytesToU64Slice,bytesToU32Slice"]}
{"id": "C70", "title": "The caller owns a value returned by an unmarshalled filter", "statement": "After Unmarshal, assigning to a byte of a value returned by Get or by an iterator changes the value of the one key that was hit, in the filter and in the buffer, and nothing else. Appending to a returned value changes neither the filter nor the buffer that was given to Unmarshal.", "quantifier": "all filters made by Build and marshalled, all buffers that hold them followed by anything, all queries and iterator states, all bytes assigned or appended", "why_tests_cant": "the tests only compare returned values; the capacity of a returned slice reaches to the end of the buffer, so what an append destroys depends on where the value lies and on what the program keeps behind the filter", "anchors": ["surf/bits_vec.go:valueVector.Get,valueVector.Unmarshal", "surf/surf.go:Get,Unmarshal,Iterator.Value"]}
{"id": "C71", "title": "A caller may keep, read and overwrite the value that the radix tree's Get returned", "statement": "Get shows the bytes of the key's last Put with the bytes that callers assigned since to the slice which Get returned for it. Assigning to a byte of a returned value changes the value of that key and of no other; once the key was put again or removed, assigning to the kept slice shows in no Get. A kept slice keeps its bytes through all Puts, Gets and Deletes and through appends. Appending to a returned value changes nothing in the tree.", "quantifier": "all sequences of Put, Get, Delete, assignments to and appends to returned values by one goroutine in which each call returns, all keys and values", "why_tests_cant": "the tests compare a returned value at once and drop it; that a later Put, a node that grows or splits, or a write through a kept slice touches no other key is a statement about all histories", "anchors": ["art/art.go:Get,Put,Delete", "art/node.go:newLeaf,leaf.value"]}
{"id": "C72", "title": "A marshalled filter comes back whole although the format's sizes are 32-bit words", "statement": "For a filter that Build returned, Marshal writes MarshalSize bytes, and Unmarshal of these bytes, whatever follows them, returns a filter in which Get of each stored key returns its value, when every uint32 of Build, Marshal, Unmarshal and Get wraps at 2^32 as in the code.", "quantifier": "all key lists and values that Build accepts, all suffix configurations and hints, all trailing bytes; proved below 2^23 keys of less than 2^29 bytes and 2^32 bytes of values, refuted without the limit on values", "why_tests_cant": "a test cannot marshal filters at the limits of the 32-bit fields, nor try all key lists below them", "anchors": ["surf/surf.go:MarshalSize,Marshal,Unmarshal", "surf/bits_vec.go:bitsSize,lutSize,WriteTo,Unmarshal", "surf/louds_dense.go:Unmarshal", "surf/louds_sparse.go:Unmarshal"]}
{"id": "C73", "title": "Get is safe on whatever bytes Unmarshal accepted", "statement": "After Unmarshal accepted some bytes, damaged or not, Get of any key ends without a panic, and a value it returns has a size that is stored in the data and consists of bytes of the data.", "quantifier": "all byte strings that Unmarshal accepts, all contents of the caller's array behind them, all keys shorter than 2^32 bytes; that Get ends and that values are pieces of the caller's array is proved, that it never panics and that values are pieces of the data is refuted", "why_tests_cant": "the tests unmarshal only what Marshal wrote; that no input at all makes Get loop or read elsewhere is a statement about all byte strings", "anchors": ["surf/surf.go:Unmarshal,Get", "surf/bits_vec.go:valueVector.Get,GetPrefix,Select,Rank,DistanceToNextSetBit,Unmarshal", "surf/louds_dense.go:Get,Unmarshal", "surf/louds_sparse.go:Get,Unmarshal"]}
