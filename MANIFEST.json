{
 "claims": [
  {
   "property": "C01",
   "status": "proved",
   "theorems": [
    "C01_map"
   ],
   "note": "any operation sequence whose calls return; Get is proved to return on every reachable tree. The returned slice's aliasing of tree memory is not modelled"
  },
  {
   "property": "C02",
   "status": "proved",
   "theorems": [
    "C02_put"
   ],
   "note": ""
  },
  {
   "property": "C03",
   "status": "partial",
   "theorems": [
    "C03_delete_returns_refuted",
    "C03_delete_lone_diverges",
    "C03_delete_returns_partial"
   ],
   "note": "the claim is false of the code: Delete of an absent key whose descent ends at another key's leaf retries for ever; proved for every stored key; C44 says exactly for which absent keys"
  },
  {
   "property": "C04",
   "status": "proved",
   "theorems": [
    "C04_delete_effect",
    "C04_delete_never_panics"
   ],
   "note": ""
  },
  {
   "property": "C05",
   "status": "proved",
   "theorems": [
    "C05_long_paths",
    "C01_map"
   ],
   "note": ""
  },
  {
   "property": "C06",
   "status": "proved",
   "theorems": [
    "C06_prefix_keys"
   ],
   "note": "Delete clauses are for stored keys (see C03 for absent ones)"
  },
  {
   "property": "C07",
   "status": "proved",
   "theorems": [
    "C07_node_kinds"
   ],
   "note": ""
  },
  {
   "property": "C08",
   "status": "proved",
   "theorems": [
    "C08_leaf"
   ],
   "note": "copying of the caller's slices is implicit: model values are immutable"
  },
  {
   "property": "C09",
   "status": "proved",
   "theorems": [
    "C09_occupancy",
    "C09_empty_tree"
   ],
   "note": ""
  },
  {
   "property": "C10",
   "status": "proved",
   "theorems": [
    "C10_depth"
   ],
   "note": "fullKey's separate leftmost walk is not counted"
  },
  {
   "property": "C11",
   "status": "proved",
   "theorems": [
    "C11_one_writer",
    "C11_owners_exist",
    "C11_one_writer_fields",
    "C11_owners_exist_fields"
   ],
   "note": "Ownership is read off the version words alone; any number of goroutines, all interleavings."
  },
  {
   "property": "C12",
   "status": "proved",
   "theorems": [
    "C12_quiescent",
    "C12_values",
    "C12_retired",
    "C12_retired_for_ever",
    "C12_quiescent_groups"
   ],
   "note": "Every load and store of a field is a separate step; sequentially consistent memory, unbounded version counters."
  },
  {
   "property": "C13",
   "status": "proved",
   "theorems": [
    "C13_linearizable",
    "C13_linearizable_fields",
    "C13_fields_to_groups"
   ],
   "note": "Histories of calls and returns of any number of goroutines; includes that a panicked Put has no effect."
  },
  {
   "property": "C14",
   "status": "partial",
   "theorems": [
    "C14_no_panic_refuted",
    "C14_no_panic_partial",
    "C14_no_panic_fields_refuted",
    "C14_no_panic_fields_partial",
    "C43_no_panic_apart"
   ],
   "note": "The claim is false (C14_no_panic_refuted gives an interleaving in which Put panics). Get and Delete never panic, a panicking Put holds no lock, and nothing panics when no Put overlaps a Delete (C43_no_panic_apart, claim C43)."
  },
  {
   "property": "C15",
   "status": "proved",
   "theorems": [
    "C15_no_deadlock",
    "C15_no_cycle",
    "C15_only_waits",
    "C15_no_deadlock_fields",
    "C15_no_cycle_fields",
    "C15_only_waits_fields"
   ],
   "note": ""
  },
  {
   "property": "C16",
   "status": "proved",
   "theorems": [
    "C16_runs_alone",
    "C16_runs_alone_fields"
   ],
   "note": "Get and Put, started in any reachable state in which no lock bit is set, with other goroutines anywhere inside their operations: every way the goroutine can run alone leads to a result after finitely many steps. Get and Put are the operations the property names; Delete of an absent key does not finish even alone (C03)."
  },
  {
   "property": "C17",
   "status": "proved",
   "theorems": [
    "C17_no_false_negatives"
   ],
   "note": "keys total fewer than 2^32 bytes (uint32 positions); any fingerprint function stands for farm.Fingerprint64; counters are unbounded in this model, C64 says how far the uint32 counters of the code agree with it"
  },
  {
   "property": "C18",
   "status": "proved",
   "theorems": [
    "C18_get_never_panics"
   ],
   "note": "for filters built from valid inputs (see C22)"
  },
  {
   "property": "C19",
   "status": "proved",
   "theorems": [
    "C19_hits_are_backed"
   ],
   "note": ""
  },
  {
   "property": "C20",
   "status": "partial",
   "theorems": [
    "C20_split_invisible_partial",
    "C20_split_invisible_refuted",
    "C20_split_exact"
   ],
   "note": "false of the code when the query is a proper prefix of a stored key (sparse Get skips the path comparison when the key ends at a node); proved for every other query; C20_split_exact says exactly for which queries two layouts differ"
  },
  {
   "property": "C21",
   "status": "proved",
   "theorems": [
    "C21_suffixes_read_back"
   ],
   "note": ""
  },
  {
   "property": "C22",
   "status": "partial",
   "theorems": [
    "C22_build_returns_partial",
    "C22_build_returns_refuted"
   ],
   "note": "Build panics on the single empty key; proved for every other non-empty strictly increasing list"
  },
  {
   "property": "C23",
   "status": "partial",
   "theorems": [
    "C23_builder_reusable_refuted",
    "C23_second_get_refuted",
    "C56_second_answers",
    "C56_second_loses"
   ],
   "note": "the claim is false of the code: builder state of the first Build leaks into the second, which loses keys and can make Get panic; what the second filter answers is C56"
  },
  {
   "property": "C24",
   "status": "proved",
   "theorems": [
    "C24_unmarshal_marshal"
   ],
   "note": "For every built filter whose counts fit the uint32 fields the code keeps them in (fields_fit, a hypothesis; the model's counts are unbounded) and any trailing bytes, Unmarshal of the serialized form is the same filter."
  },
  {
   "property": "C25",
   "status": "proved",
   "theorems": [
    "C25_marshal_sizes"
   ],
   "note": "MarshalSize is the exact length and a multiple of 8; reading at offset MarshalNoValueSize gives the values. Same fields_fit hypothesis; writers that fail are not modelled."
  },
  {
   "property": "C26",
   "status": "partial",
   "theorems": [
    "C26_forward_partial",
    "C26_new_iterator",
    "C26_forward_refuted",
    "C26_sparse_only_refuted",
    "C26_prefix_key_refuted",
    "C46_forward",
    "C46_forward_complete",
    "C46_sparse_only"
   ],
   "note": "proved when the filter has a dense level and no stored key is a prefix of all others; otherwise false: with no dense level the iterator is never valid, and a root prefix key is skipped; C46 says exactly which keys are visited and when that is all of them"
  },
  {
   "property": "C27",
   "status": "partial",
   "theorems": [
    "C27_backward_partial",
    "C27_backward_refuted",
    "C27_sparse_only_refuted",
    "C46_backward",
    "C46_backward_complete",
    "C46_sparse_only"
   ],
   "note": "as C26, and additionally byte 0 must not be a branch of the root; refuted otherwise; C46 says exactly which keys are visited and when that is all of them"
  },
  {
   "property": "C28",
   "status": "partial",
   "theorems": [
    "C28_seek_partial",
    "C28_seek_refuted",
    "C28_seek_invalid_refuted",
    "C28_seek_long_refuted"
   ],
   "note": "Proved for every query q such that, where q extends a stored key that is a proper prefix of another one, some stored key has q's next byte too or there are two larger ones (and q is stored, or real suffixes have at most 8 bits, or q extends no distinguishing prefix). Refuted otherwise: a terminator in a sparse node makes Seek skip a greater key or end up invalid. C28_seek_long_refuted: for every real suffix length from 9 to 64 bits and every number of dense levels, Seek passes a stored key greater than the query, even without prefix keys. C50 gives the exact position for every length."
  },
  {
   "property": "C29",
   "status": "partial",
   "theorems": [
    "C29_overlap_partial",
    "C29_overlap_refuted",
    "C29_overlap_long_refuted"
   ],
   "note": "Proved when start is a query covered by C28 and real suffixes have at most 8 bits or stop extends no distinguishing prefix; refuted in general. C29_overlap_long_refuted: false for every real suffix length from 9 to 64 bits; C51 gives the exact answer."
  },
  {
   "property": "C30",
   "status": "proved",
   "theorems": [
    "C30_rank"
   ],
   "note": "both block sizes, any number of levels"
  },
  {
   "property": "C31",
   "status": "proved",
   "theorems": [
    "C31_select",
    "C31_first_bit_needed"
   ],
   "note": "second theorem: the hypothesis on bit 0 is necessary"
  },
  {
   "property": "C32",
   "status": "proved",
   "theorems": [
    "C32_select64"
   ],
   "note": "PDEP/TZCNT semantics as documented by Intel"
  },
  {
   "property": "C33",
   "status": "proved",
   "theorems": [
    "C33_concat"
   ],
   "note": ""
  },
  {
   "property": "C34",
   "status": "partial",
   "theorems": [
    "C34_distance_next_partial",
    "C34_distance_next_refuted",
    "C34_distance_prev"
   ],
   "note": "at the last position of a vector filling its last word the forward scan answers 0 instead of 1 (refuted witness); exact otherwise"
  },
  {
   "property": "C35",
   "status": "partial",
   "theorems": [
    "C35_compare_partial",
    "C35_compare_refuted",
    "C35_compare_17_refuted",
    "C35_compare_exact",
    "C35_compare_long_refuted"
   ],
   "note": "Proved for real suffixes of 1 to 8 bits; false for every longer length (C35_compare_long_refuted, and a 17-bit witness where both keys are long). C35_compare_exact gives the result of Compare for every length: the order of the kept bits."
  },
  {
   "property": "C36",
   "status": "proved",
   "theorems": [
    "C36_seek_stored"
   ],
   "note": "For every built filter, every stored key and any iterator state: valid, Key() is the distinguishing prefix, Value() the stored value."
  },
  {
   "property": "C37",
   "status": "partial",
   "theorems": [
    "C37_calls_partial",
    "C37_iterator_panic_refuted",
    "C47_no_panic",
    "C48_calls_return"
   ],
   "note": "False as stated (C37_iterator_panic_refuted: Prev at a key that is a prefix of all others panics; C48_unplaced_refuted: SeekToFirst then Next without dense levels). C48_calls_return proves that nothing else panics for any queries and any order of calls; C47 gives the panicking calls by key index."
  },
  {
   "property": "C38",
   "status": "partial",
   "theorems": [
    "C38_cursor_partial",
    "C38_cursor_refuted",
    "C47_cursor"
   ],
   "note": "same restrictions as C37; false in general: SeekToFirst misses a key that is a prefix of all the others; C47 gives the exact cursor"
  },
  {
   "property": "C39",
   "status": "partial",
   "theorems": [
    "C39_overlap_backed_partial",
    "C39_overlap_backed_refuted"
   ],
   "note": "For start and stop as in C29, where a key k below the dense levels that is a proper prefix of another one and extends stop only counts against stop if stop ends exactly where the sparse levels start (then k must equal stop); false in general (keys ab, abc without a dense level, range [] to []). C51 gives the exact answer."
  },
  {
   "property": "C40",
   "status": "partial",
   "theorems": [
    "C40_size_hint_partial",
    "C40_size_hint_refuted"
   ],
   "note": "proved with one more bit per key and 7 bits: hint+1 bits per key (fewer than 2^23 keys); hint bits per key is refuted by three keys (prefix-key flags of the last dense level and of the sparse levels, and one label byte, are allocated but not counted)"
  },
  {
   "property": "C41",
   "status": "proved",
   "theorems": [
    "C41_dense_maximal",
    "C41_dense_monotone",
    "C41_negative_hint_refuted"
   ],
   "note": "for fewer than 2^23 keys (beyond, a product in uint32 may overflow) and non-negative hints; a negative hint acts as a huge one (C41_negative_hint_refuted)"
  },
  {
   "property": "C42",
   "status": "proved",
   "theorems": [
    "C42_sparse_linear"
   ],
   "note": "counting fields as in SurfSizeSpec.encoded_bits"
  },
  {
   "property": "C43",
   "status": "proved",
   "theorems": [
    "C43_no_panic_apart"
   ],
   "note": "For the machine in which every field access is a step (ArtFine.v). The hypothesis 'apart' is on calls and returns only."
  },
  {
   "property": "C44",
   "status": "proved",
   "theorems": [
    "C44_delete_diverges_iff",
    "C44_delete_returns_iff",
    "C44_short_keys"
   ],
   "note": "Gives the exact extent of the C03 defect. The nine bytes are one child byte and the eight compared bytes of a compressed path."
  },
  {
   "property": "C45",
   "status": "proved",
   "theorems": [
    "C45_get_all",
    "C45_get_exact",
    "C45_wide_hash"
   ],
   "note": "C45_get_all covers every query; C45_get_exact is the simpler form for queries that are not proper prefixes of stored keys."
  },
  {
   "property": "C46",
   "status": "proved",
   "theorems": [
    "C46_sparse_only",
    "C46_forward",
    "C46_backward",
    "C46_forward_complete",
    "C46_backward_complete"
   ],
   "note": "for every built filter"
  },
  {
   "property": "C47",
   "status": "proved",
   "theorems": [
    "C47_cursor",
    "C47_no_panic"
   ],
   "note": "SeekToFirst and SeekToLast with a dense level, Seek for the queries of C50, any suffix length"
  },
  {
   "property": "C48",
   "status": "proved",
   "theorems": [
    "C48_calls_return",
    "C48_overlap_returns",
    "C48_unplaced_refuted",
    "C48_key_shown_refuted"
   ],
   "note": "Any queries, suffix lengths and call orders. The restriction for filters without dense levels is part of the statement; C48_unplaced_refuted shows it is needed, C48_key_shown_refuted that Key may show bytes of no key."
  },
  {
   "property": "C49",
   "status": "proved",
   "theorems": [
    "C49_map",
    "C49_put",
    "C49_delete",
    "C49_delete_stored",
    "C49_delete_absent",
    "C49_occupancy",
    "C49_empty_tree",
    "C49_depth",
    "C49_occupancy_always",
    "C49_no_lost_node"
   ],
   "note": "Field-level machine; the sequential theorems of C02, C03, C04, C09, C10 and C44 carried over to every tree that concurrent use leaves behind."
  },
  {
   "property": "C50",
   "status": "proved",
   "theorems": [
    "C50_seek_exact",
    "C50_every_query"
   ],
   "note": "path_ok is the restriction on queries in the statement; it holds of every query when no stored key is a prefix of another (C50_every_query)"
  },
  {
   "property": "C51",
   "status": "proved",
   "theorems": [
    "C51_overlap_exact"
   ],
   "note": "overlap_answer is computed from the keys, the suffix length and the number of dense levels"
  },
  {
   "property": "C52",
   "status": "proved",
   "theorems": [
    "C52_truncated_rejected",
    "C52_trailing_ignored"
   ],
   "note": "model of Unmarshal into an arbitrary receiver; sizes computed from headers are unbounded"
  },
  {
   "property": "C53",
   "status": "proved",
   "theorems": [
    "C53_unmarshal_into"
   ],
   "note": "same answers for Get, HasOverlap and every iterator call; identical contents iff the data has suffixes or the receiver had no suffix words"
  },
  {
   "property": "C54",
   "status": "proved",
   "theorems": [
    "C54_write_errors",
    "C54_limited_writer"
   ],
   "note": "for every writer state and function; a writer with a limit as the concrete case"
  },
  {
   "property": "C55",
   "status": "partial",
   "theorems": [
    "C55_marshal_again_refuted",
    "C55_marshal_again_partial",
    "C55_size_off"
   ],
   "note": "false: suffix words of the receiver survive Unmarshal of a filter without suffixes and Marshal writes them, so the bytes cannot be read back; holds exactly if the data has suffixes or the receiver had no suffix words"
  },
  {
   "property": "C56",
   "status": "proved",
   "theorems": [
    "C56_second_answers",
    "C56_second_loses",
    "C56_second_returns",
    "C56_second_no_dense"
   ],
   "note": "two lists of at least two keys; nothing is claimed for queries that leave the root of the first trie, except that Get can panic there (C23_second_get_refuted)"
  },
  {
   "property": "C57",
   "status": "partial",
   "theorems": [
    "C57_ends_refuted",
    "C57_ends_partial",
    "C57_ends_are_children"
   ],
   "note": "false of the two smaller node kinds, whose children are in order of arrival, and lastChild panics in a childless node; proved for the two larger kinds; in every node with a child both return a child"
  },
  {
   "property": "C58",
   "status": "proved",
   "theorems": [
    "C58_beside_gets",
    "C58_beside_gets_fields"
   ],
   "note": "Get and Put; both machines (groups of reads and single fields). Delete of an absent key does not finish even alone (C03)."
  },
  {
   "property": "C59",
   "status": "proved",
   "theorems": [
    "C59_restart_blame",
    "C59_restart_blame_fields"
   ],
   "note": "Get and Put, the operations the property names; both machines"
  },
  {
   "property": "C60",
   "status": "partial",
   "theorems": [
    "C60_progress_refuted",
    "C58_beside_gets_fields"
   ],
   "note": "false of the code: two Puts can make each other start over for ever; with one Put and any number of Gets the Put returns (C58)"
  },
  {
   "property": "C61",
   "status": "partial",
   "theorems": [
    "C61_linearizable_refuted",
    "C61_key_missed",
    "C61_linearizable_partial",
    "C61_same_memory_partial",
    "C61_same_histories_partial",
    "C61_short"
   ],
   "note": "False: with 64-bit version words a Get suspended while the root changes 2^62 times misses a key stored all along (C61_linearizable_refuted, C61_key_missed). Proved for every execution in which fewer than 2^62 events happen during each single operation, however many operations have completed before: the histories and the memory are those of the machine with unbounded words."
  },
  {
   "property": "C62",
   "status": "proved",
   "theorems": [
    "C62_get_is_slice",
    "C62_value_is_slice",
    "C62_write_after_get",
    "C62_write_seen",
    "C62_write_after_value"
   ],
   "note": "SurfAlias returns slices of the filter's arrays instead of bytes; a write gives exactly the filter built from the changed values. For Value the changed key is the one whose value is shown; it is not tied to the iterator's Key."
  },
  {
   "property": "C63",
   "status": "partial",
   "theorems": [
    "C63_append_harmless_refuted",
    "C63_append_partial",
    "C63_append_any_partial"
   ],
   "note": "False: the slice's capacity reaches to the end of the array of all values (bits_vec.go:155-158 does not limit it), so an append overwrites the value of the next key in level order. Proved instead: an append of at most one value's length changes exactly one other key's value, or nothing when the value is last; any append leaves the keys and the value itself alone."
  },
  {
   "property": "C64",
   "status": "partial",
   "theorems": [
    "C64_stored_keys_found_refuted",
    "C64_stored_keys_found_partial",
    "C64_build_same_partial",
    "C64_get_same_partial"
   ],
   "note": "False without a bound on the values: with three values of 2^31 bytes Get returns another key's value (refuted). Proved for fewer than 2^23 keys shorter than 2^29 bytes with fewer than 2^32 bytes of values; not covered: between these bounds and the first overflow of other counters."
  },
  {
   "property": "C65",
   "status": "proved",
   "theorems": [
    "C65_same",
    "C65_forward",
    "C65_backward"
   ],
   "note": "For every growth policy of append and every sequence of calls that returns in the model without buffers (C47, C48 say which do), the keys read at once are the same; iteration over built filters as in C46."
  },
  {
   "property": "C66",
   "status": "partial",
   "theorems": [
    "C66_key_kept_partial",
    "C66_key_kept_refuted",
    "C66_key_kept_below_refuted"
   ],
   "note": "True for keys that end below the dense levels, until the next call of Key. Refuted otherwise: Next overwrites a key from the dense levels (for every growth policy), the next Key overwrites one from below (with Go's capacities)."
  },
  {
   "property": "C67",
   "status": "partial",
   "theorems": [
    "C67_caller_stores_partial",
    "C67_below_spared",
    "C67_append_spared",
    "C67_store_refuted",
    "C67_append_refuted"
   ],
   "note": "True for stores that miss the bytes the dense part of the iterator uses: all stores in and appends to keys that end below the dense levels, appends to a key just returned that is not a stored prefix key from the dense levels, and appends for which the array of the key has no room. Refuted otherwise, by a store and by an append."
  },
  {
   "property": "C68",
   "status": "proved",
   "theorems": [
    "C68_iterators_same",
    "C68_calls_return",
    "C68_forward",
    "C68_backward",
    "C68_overlap_same",
    "C68_overlap",
    "C68_value_beyond_4GiB_refuted"
   ],
   "note": "limits are part of the statement; beyond 4 GiB of values Value is wrong (refuted); where the unbounded model panics (Prev at a key that all others start with) the theorem on sequences says nothing"
  },
  {
   "property": "C69",
   "status": "partial",
   "theorems": [
    "C69_in_place",
    "C69_reuse_partial",
    "C69_trailing",
    "C69_values_follow",
    "C69_reuse_refuted"
   ],
   "note": "False for every filter with values: C69_reuse_refuted gives for each of them a change of the buffer after which Get returns wrong values. True for changes that keep the bytes in the filter's slices, among them all changes behind the filter; an unchanged buffer gives the filter of C24. Iterators made before a change are not modelled."
  },
  {
   "property": "C70",
   "status": "partial",
   "theorems": [
    "C70_store_after_get",
    "C70_store_after_value",
    "C70_append_partial",
    "C70_append_refuted",
    "C70_again_refuted"
   ],
   "note": "Assigning to a byte of a returned value is proved to change exactly one key's value, in the filter and in the buffer. That appending leaves filter and buffer alone is refuted; what stays (the keys, the value itself, the bytes before the values) is C70_append_partial."
  },
  {
   "property": "C71",
   "status": "proved",
   "theorems": [
    "C71_map",
    "C71_shows_one",
    "C71_store",
    "C71_stale",
    "C71_held",
    "C71_append",
    "C71_put"
   ],
   "note": "One goroutine. C71_map is the general statement; store, stale, held, append and put are its consequences call by call."
  },
  {
   "property": "C72",
   "status": "partial",
   "theorems": [
    "C72_stored_keys_found_partial",
    "C72_restored_partial",
    "C72_marshal_same_partial",
    "C72_fields_fit",
    "C72_big_not_restored",
    "C72_restored_refuted"
   ],
   "note": "proved below 2^23 keys of less than 2^29 bytes and 2^32 bytes of values; without the limit on values refuted (three values of 2^31 bytes)"
  },
  {
   "property": "C73",
   "status": "partial",
   "theorems": [
    "C73_ends_partial",
    "C73_value_in_array_partial",
    "C73_marshalled_partial",
    "C73_no_panic_refuted",
    "C73_value_in_data_refuted"
   ],
   "note": "Get on any accepted data ends, and a returned value is a piece of the caller's array of a stored size; for marshalled filters the answers are those of the filter. Refuted: Get can panic, and it can return bytes behind the data."
  }
 ]
}