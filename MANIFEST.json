{
 "claims": [
  {
   "property": "C01",
   "status": "proved",
   "theorems": [
    "C01_avl_refines"
   ],
   "note": ""
  },
  {
   "property": "C02",
   "status": "proved",
   "theorems": [
    "C02_rb_refines"
   ],
   "note": ""
  },
  {
   "property": "C03",
   "status": "proved",
   "theorems": [
    "C03_splay_refines"
   ],
   "note": ""
  },
  {
   "property": "C04",
   "status": "proved",
   "theorems": [
    "C04_treap_refines"
   ],
   "note": ""
  },
  {
   "property": "C05",
   "status": "proved",
   "theorems": [
    "C05_skip_refines"
   ],
   "note": ""
  },
  {
   "property": "C06",
   "status": "proved",
   "theorems": [
    "C06_avl_iterators",
    "C06_rb_iterators",
    "C06_splay_iterators",
    "C06_treap_iterators",
    "C06_skip_iterators",
    "C06_next"
   ],
   "note": ""
  },
  {
   "property": "C07",
   "status": "partial",
   "theorems": [
    "C07_avl_balanced_refuted",
    "C07_avl_depth_refuted",
    "C07_avl_balanced_partial"
   ],
   "note": "Violated by the code after a remove of a key with two children: for every c some history leads to a tree deeper than c times the logarithm of its size. Proved for all histories that remove only smallest and largest keys."
  },
  {
   "property": "C08",
   "status": "proved",
   "theorems": [
    "C08_rb_balanced"
   ],
   "note": ""
  },
  {
   "property": "C09",
   "status": "proved",
   "theorems": [
    "C09_treap_invariants"
   ],
   "note": ""
  },
  {
   "property": "C10",
   "status": "proved",
   "theorems": [
    "C10_treap_history_independent"
   ],
   "note": ""
  },
  {
   "property": "C11",
   "status": "proved",
   "theorems": [
    "C11_C12_treap_programs_refine",
    "C11_spec_set_pointwise"
   ],
   "note": ""
  },
  {
   "property": "C12",
   "status": "proved",
   "theorems": [
    "C11_C12_treap_programs_refine"
   ],
   "note": ""
  },
  {
   "property": "C13",
   "status": "partial",
   "theorems": [
    "C13_skip_union",
    "C13_skip_diff_exact",
    "C13_skip_diff_refuted",
    "C13_skip_inter_result_refuted",
    "C13_skip_inter_refuted",
    "C13_skip_inter_exact",
    "C13_skip_inter_many_refuted",
    "C13_skip_inter_then_refuted",
    "C13_skip_programs_partial"
   ],
   "note": "Union proved. Difference and symmetric difference panic exactly when the left map has a key above all of the right one (proved; right otherwise). Intersection links one level too many: when it panics, what it returns otherwise, and at which keys that result panics is proved exactly."
  },
  {
   "property": "C14",
   "status": "proved",
   "theorems": [
    "C14_treap_list_refines"
   ],
   "note": ""
  },
  {
   "property": "C15",
   "status": "proved",
   "theorems": [
    "C15_skip_list_refines"
   ],
   "note": ""
  },
  {
   "property": "C16",
   "status": "partial",
   "theorems": [
    "C16_skip_list_programs_partial",
    "C16_skip_list_add_iterates",
    "C16_skip_list_get_refuted",
    "C16_skip_list_use_after_free_refuted"
   ],
   "note": "Violated by the code: remove leaves past-the-end distances too large, so after + onto a list something was removed from, access by index is wrong and remove leaves a dangling link. Proved for programs that join only onto lists nothing was removed from (or add an empty list); length, iteration and drop of the result proved in general."
  },
  {
   "property": "C17",
   "status": "proved",
   "theorems": [
    "C17_arena_live"
   ],
   "note": ""
  },
  {
   "property": "C18",
   "status": "partial",
   "theorems": [
    "C18_radix_exact_partial",
    "C18_radix_refuted"
   ],
   "note": "Violated by the code: an insert into a map that a remove left empty panics. The exact behaviour of every history is proved: the map specification up to that insert."
  },
  {
   "property": "C19",
   "status": "partial",
   "theorems": [
    "C19_radix_empty_refuted",
    "C19_radix_empty_always"
   ],
   "note": "Violated by the code: after the last key is removed every insert panics."
  },
  {
   "property": "C20",
   "status": "partial",
   "theorems": [
    "C20_longest_prefix_partial",
    "C20_longest_prefix_exact",
    "C20_longest_prefix_refuted",
    "C20_longest_prefix_history_refuted"
   ],
   "note": "Violated by the code when the best matches branch right after the common prefix. The exact answer is proved for every history and every query (it depends on whether a remove has been called); it is always a subset of the best matches."
  },
  {
   "property": "C21",
   "status": "proved",
   "theorems": [
    "C21_radix_compact"
   ],
   "note": ""
  },
  {
   "property": "C22",
   "status": "proved",
   "theorems": [
    "C22_stack_safe",
    "C22_stack_linearizable",
    "C22_stack_no_invention",
    "C22_stack_drain"
   ],
   "note": ""
  },
  {
   "property": "C23",
   "status": "partial",
   "theorems": [
    "C23_stack_len_partial",
    "C23_stack_len_refuted",
    "C23_stack_len_near",
    "C23_stack_counted",
    "C23_stack_counted_all"
   ],
   "note": "Violated by the code while calls are in progress (the counter wraps below zero); exactness when no call is in progress is proved, and exactly which histories are possible otherwise."
  },
  {
   "property": "C24",
   "status": "partial",
   "theorems": [
    "C24_stack_double_drop_refuted",
    "C24_skip_into_iter_exact",
    "C24_skip_into_iter_refuted",
    "C24_skip_list_into_iter_exact",
    "C24_skip_list_into_iter_refuted"
   ],
   "note": "Violated by the code for TreiberStack and for SkipMap and SkipList into_iter; for the latter two the exact drops are proved."
  },
  {
   "property": "C25",
   "status": "partial",
   "theorems": [
    "C25_bp_refines_partial",
    "C25_bp_exact",
    "C25_harmless",
    "C25_bp_iter_refuted"
   ],
   "note": "Violated by the code for some overwrites with leaf degree >= 5 (C26) and for internal degree < 3 or leaf degree 0 (C32). Proved for all other degrees and every history without a harmful overwrite, including closing and reopening; C25_bp_exact shows that no weaker condition on the history is enough."
  },
  {
   "property": "C26",
   "status": "partial",
   "theorems": [
    "C26_overwrite_partial",
    "C26_overwrite_exact",
    "C26_leaf_overwrite_exact",
    "C26_overwrite_refuted",
    "C26_overwrite_every_degree_refuted"
   ],
   "note": "Violated by the code for every leaf degree >= 5 (which includes default degrees) and every internal degree: overwriting a key in the upper part of a full leaf loses entries. Proved for leaf degrees up to 4; C26_overwrite_exact says for all degrees which overwrites lose entries; the exact entries lost are proved for a leaf."
  },
  {
   "property": "C27",
   "status": "partial",
   "theorems": [
    "C27_leaf_ops_partial",
    "C26_leaf_overwrite_exact"
   ],
   "note": "All leaf operations proved except overwriting in a full leaf, whose (wrong) effect is proved exactly."
  },
  {
   "property": "C28",
   "status": "partial",
   "theorems": [
    "C28_internal_ops_partial",
    "C28_internal_left_refuted"
   ],
   "note": "All internal node operations proved except a split by insertion on the left side of a key, which loses children (not used by the map)."
  },
  {
   "property": "C29",
   "status": "partial",
   "theorems": [
    "C29_pager",
    "C29_bp_pages_partial",
    "C29_space_partial"
   ],
   "note": "Proved for the pager under any client. For the map proved for all histories and degrees of C25_bp_refines_partial."
  },
  {
   "property": "C30",
   "status": "partial",
   "theorems": [
    "C30_node_round_trip",
    "C30_metadata_round_trip",
    "C30_write_read",
    "C30_bytes_refine_partial",
    "C30_file_sound_partial"
   ],
   "note": "Round trips proved for all nodes, metadata and pages. The map on a file of bytes, including reopening, is proved for all histories and degrees of C25_bp_refines_partial when nodes fit into pages (C31)."
  },
  {
   "property": "C31",
   "status": "partial",
   "theorems": [
    "C31_fits_iff",
    "C31_layout_partial",
    "C31_with_degrees_refuted",
    "C31_default_refuted",
    "C31_array_refuted"
   ],
   "note": "Violated by the code for types whose options have a niche or alignment 1. The exact condition is proved, and that no overflow happens under it (C30_file_sound_partial)."
  },
  {
   "property": "C32",
   "status": "partial",
   "theorems": [
    "C32_small_degree_refuted",
    "C32_leaf_degree_zero_refuted",
    "C25_bp_refines_partial"
   ],
   "note": "Violated by the code for internal degrees 0, 1 and 2; degrees >= 3 proved by C25."
  },
  {
   "property": "C33",
   "status": "proved",
   "theorems": [
    "C33_get_any_block_size",
    "C33_get"
   ],
   "note": "Byte-level model of the builder and reader; any Bloom filter without false negatives; files shorter than 2^64 bytes."
  },
  {
   "property": "C34",
   "status": "proved",
   "theorems": [
    "C34_iter_summary",
    "C34_build"
   ],
   "note": "Byte-level model."
  },
  {
   "property": "C35",
   "status": "proved",
   "theorems": [
    "C35_merge",
    "C35_user_iterator"
   ],
   "note": ""
  },
  {
   "property": "C36",
   "status": "proved",
   "theorems": [
    "C36_leveled_map",
    "C36_limits_small",
    "C36_limits_odd"
   ],
   "note": "Every call sequence and thread timing, with limits that stay positive as far down as the entries reach. Not covered: reopening with unflushed writes (see C41) and using an iterator after clear. Results of min and max between a removal and the next flush are not promised (C38)."
  },
  {
   "property": "C37",
   "status": "partial",
   "theorems": [
    "C37_size_tiered_map_partial",
    "C37_no_removal",
    "C37_size_tiered_map_refuted",
    "C37_nothing_lost",
    "C37_get",
    "C37_iter"
   ],
   "note": "Violated by the code: a removed key comes back when a compaction takes in all tables while the newest entry is a tombstone. Proved for every call sequence and thread timing in which no such compaction takes place, in particular if nothing is removed; and without that condition, up to removed pairs that come back (nothing is lost, nothing that was never inserted turns up)."
  },
  {
   "property": "C38",
   "status": "partial",
   "theorems": [
    "C38_min_max_partial",
    "C38_min_max_exact",
    "C38_min_max_refuted",
    "C38_tiered_min_max_partial",
    "C38_tiered_min_max_exact_partial"
   ],
   "note": "Violated by the code: keys of the tables that are removed only in memory are reported. Proved when nothing was removed since the last flush; what the calls return otherwise is proved exactly (for SizeTieredStrategy both under the condition of C37)."
  },
  {
   "property": "C39",
   "status": "proved",
   "theorems": [
    "C39_len_hint",
    "C39_tiered_len_hint"
   ],
   "note": "Both strategies, every call sequence and thread timing."
  },
  {
   "property": "C40",
   "status": "partial",
   "theorems": [
    "C40_reopen_partial",
    "C40_reopen_refuted",
    "C40_tiered_reopen_partial",
    "C40_tiered_reopen_loose"
   ],
   "note": "Violated by the code for a map that was never written to (logical_time.dat is empty). Proved for all others (for SizeTieredStrategy under the condition of C37, or without it up to removed pairs that come back)."
  },
  {
   "property": "C41",
   "status": "partial",
   "theorems": [
    "C41_crash_partial",
    "C41_crash_refuted",
    "C41_tiered_crash_partial",
    "C41_tiered_crash_loose_partial"
   ],
   "note": "Violated by the code between the removal of old tables and the writing of metadata.dat. Proved at all other crash points, through any number of crashes (for SizeTieredStrategy if nothing is removed, or otherwise up to removed pairs that come back)."
  },
  {
   "property": "C42",
   "status": "proved",
   "theorems": [
    "C42_iterator",
    "C42_tiered_iterator",
    "C42_tiered_iterator_unhurt"
   ],
   "note": "Both strategies; clear and reopening are the only calls that take the files from under an iterator. With SizeTieredStrategy the pairs an iterator yields are those of the map when it was made, plus removed pairs that had come back by then (none under the condition of C37)."
  },
  {
   "property": "C43",
   "status": "proved",
   "theorems": [
    "C43_disjoint"
   ],
   "note": ""
  },
  {
   "property": "C44",
   "status": "partial",
   "theorems": [
    "C44_terminates_partial",
    "C44_terminates_refuted"
   ],
   "note": "Violated by the code for configurations in which the limit of some level is 0 or wraps to 0. Proved for all others."
  },
  {
   "property": "C45",
   "status": "partial",
   "theorems": [
    "C45_avl_set",
    "C45_rb_set",
    "C45_splay_set",
    "C45_treap_set",
    "C45_skip_set",
    "C45_skip_set_programs_partial",
    "C45_radix_set_partial"
   ],
   "note": "Proved for AvlSet, RedBlackSet, SplaySet, TreapSet (with set algebra) and single SkipSets. RadixSet inherits the panic of C18 and SkipSet set algebra the failures of C13 (exact behaviour proved for both)."
  },
  {
   "property": "C46",
   "status": "proved",
   "theorems": [
    "C46_splay_root_insert",
    "C46_splay_root_get_mut"
   ],
   "note": ""
  },
  {
   "property": "C47",
   "status": "partial",
   "theorems": [
    "C47_arena_reuse_partial",
    "C47_arena_chunks_partial",
    "C47_arena_reuse_refuted",
    "C47_arena_chunk_zero_refuted",
    "C47_arena_exact",
    "C47_arena_parts",
    "C47_arena_lost",
    "C47_arena_slots",
    "C47_arena_leak_refuted"
   ],
   "note": "Violated by the code: a rejected free (caught panic) loses the free list, so that memory can grow without bound, and chunk size 0 is accepted. Proved for all histories without a rejected free (chunk size > 0 for the chunk bound); the exact behaviour of every history is proved."
  },
  {
   "property": "C48",
   "status": "proved",
   "theorems": [
    "C48_stack_lock_free"
   ],
   "note": ""
  },
  {
   "property": "C49",
   "status": "proved",
   "theorems": [
    "C49_skip_memory"
   ],
   "note": ""
  },
  {
   "property": "C50",
   "status": "proved",
   "theorems": [
    "C50_skip_list_memory"
   ],
   "note": ""
  },
  {
   "property": "C51",
   "status": "partial",
   "theorems": [
    "C51_splay_amortised_partial",
    "C51_splay_get_refuted"
   ],
   "note": "Proved for insert, remove and get_mut in every history (at most 24 log2(n+1) + 9 comparisons per call on average). Violated by the code for get, contains_key, floor and ceil, which do not splay: each of any number of calls can compare all keys on a path of length n."
  },
  {
   "property": "C52",
   "status": "partial",
   "theorems": [
    "C52_rb_steps",
    "C52_avl_steps_partial",
    "C52_avl_steps_refuted"
   ],
   "note": "Proved for RedBlackMap (8 log2(n+1) + 8 steps). Violated by the code for AvlMap after removals (C07): no multiple of the logarithm is a bound; proved for AvlMap (4 log2(n+1) + 2) as long as only smallest and largest keys are removed."
  },
  {
   "property": "C53",
   "status": "partial",
   "theorems": [
    "C53_crash_small_partial",
    "C53_crash_insert_partial",
    "C53_last_state",
    "C53_zero_page",
    "C53_crash_split_refuted",
    "C53_crash_reuse_refuted",
    "C53_crash_merge_refuted",
    "C53_crash_borrow_refuted",
    "C53_crash_len_refuted",
    "C53_crash_clear_refuted"
   ],
   "note": "Violated by the code for insertions that split, removals that merge or borrow, clear, and the stored length. Proved for calls that change the file at most twice (all reading calls), and for iteration and min after a crash in any insertion."
  },
  {
   "property": "C54",
   "status": "partial",
   "theorems": [
    "C54_table",
    "C54_leveled",
    "C54_tiered",
    "C54_size",
    "C54_size_refuted"
   ],
   "note": "Contents: proved for both strategies, every call sequence and thread timing, for files shorter than 2^64 bytes and equal keys of equal encoded length. Size: violated by the code unless the last index block is full; bounds proved."
  },
  {
   "property": "C55",
   "status": "partial",
   "theorems": [
    "C55_leveled",
    "C55_tiered",
    "C55_leveled_lost",
    "C55_tiered_lost",
    "C55_time_torn",
    "C55_torn_refuted"
   ],
   "note": "Proved for complete writes over any previous contents, for missing tables, and for a cut write of logical_time.dat. Violated by the code for a cut write of metadata.dat."
  },
  {
   "property": "C56",
   "status": "partial",
   "theorems": [
    "C56_level_limits",
    "C56_few_levels",
    "C56_loose_partial",
    "C56_loose_refuted"
   ],
   "note": "Limits and number of levels proved. Tables outside of the levels: violated by the code, which keeps a table of removals for ever as long as nothing newer survives a compaction; proved for flushes whose newest entry in memory is an insertion."
  },
  {
   "property": "C57",
   "status": "proved",
   "theorems": [
    "C57_weak_safe",
    "C57_weak_explained",
    "C57_weak_len",
    "C57_real_time_refuted"
   ],
   "note": "View-based release/acquire memory. crossbeam_epoch by its contract; executions that read out of thin air are excluded. C57_real_time_refuted shows that the real-time order of C22 needs sequentially consistent memory or synchronisation between the threads."
  },
  {
   "property": "C58",
   "status": "proved",
   "theorems": [
    "C58_interleaved",
    "C58_returns",
    "C58_tables",
    "C58_tiered_interleaved",
    "C58_tiered_interleaved_loose",
    "C58_tiered_returns",
    "C58_tiered_tables"
   ],
   "note": "Both strategies. With SizeTieredStrategy results are exact if nothing is removed, and otherwise up to removed pairs that come back (C37)."
  },
  {
   "property": "C59",
   "status": "proved",
   "theorems": [
    "C59_crash",
    "C59_tiered_crash",
    "C59_tiered_crash_loose"
   ],
   "note": "At crash points where the directory is intact; C41_crash_refuted shows that it need not be."
  },
  {
   "property": "C60",
   "status": "partial",
   "theorems": [
    "C60_treap_average",
    "C60_treap_average_partial",
    "C60_treap_average_refuted",
    "C60_list_average"
   ],
   "note": "Proved for TreapList (8 log2 n + 10 + 4 n/M, M the number of possible priorities) and for TreapMap as long as no key is inserted while it is present (4 log2 n + 7 + 2 n/M). Violated by the code for insertions of present keys, which raise priorities: proved with the number of insertions in place of the number of keys."
  },
  {
   "property": "C61",
   "status": "partial",
   "theorems": [
    "C61_skip_counts",
    "C61_skip_average_partial",
    "C61_skip_average_refuted"
   ],
   "note": "Proved for maps of fewer than 2^32 keys: 4 log2 n + 8 for lookups, log2 n + 101 for insertions and removals. Violated by the code beyond that, since the starting height is computed from len as u32."
  },
  {
   "property": "C62",
   "status": "partial",
   "theorems": [
    "C62_slist_counts",
    "C62_slist_average_partial",
    "C62_slist_average_refuted"
   ],
   "note": "Proved for lists of fewer than 2^32 elements: log2 n + 67. Violated by the code beyond that, since no node is higher than level 32."
  },
  {
   "property": "C63",
   "status": "partial",
   "theorems": [
    "C63_accesses_partial"
   ],
   "note": "Proved for all histories and degrees of C25_bp_refines_partial; the others lose entries or panic (C26, C32)."
  },
  {
   "property": "C64",
   "status": "proved",
   "theorems": [
    "C64_radix_steps",
    "C64_longest_prefix_steps",
    "C64_counted_results"
   ],
   "note": "For keys of bytes; copying bytes of keys is not counted. The exception is that of C18: an insert into a map that a remove left empty panics."
  },
  {
   "property": "C65",
   "status": "partial",
   "theorems": [
    "C65_retired_tiered",
    "C65_retired_leveled",
    "C65_clear",
    "C65_tiered_partial",
    "C65_tiered_refuted",
    "C65_reopen_refuted",
    "C65_leveled_refuted"
   ],
   "note": "Removal of directories no longer referred to and clear: proved for both strategies. Nothing left behind: proved for the size-tiered strategy without removals and failing compactions, reopening right after a flush; violated by the code otherwise (compactions that keep nothing, unfinished installation) and by the leveled strategy without bound."
  },
  {
   "property": "C66",
   "status": "partial",
   "theorems": [
    "C66_memory_bounded",
    "C66_flush_exact_partial",
    "C66_clear_refuted"
   ],
   "note": "The bound is proved for every strategy and run. That memory is written out only when full is proved without clear, which the code lets keep the old size."
  },
  {
   "property": "C67",
   "status": "partial",
   "theorems": [
    "C67_next_partial",
    "C67_lazy_partial",
    "C67_next_refuted"
   ],
   "note": "Proved for degrees of at least 1 and 3 and histories without a harmful overwrite (exact condition of C25). Refuted otherwise: after an overwrite that loses an entry, next returns None and then further entries."
  },
  {
   "property": "C68",
   "status": "partial",
   "theorems": [
    "C68_map_average_partial",
    "C68_list_average_partial",
    "C68_map_seeded_results",
    "C68_list_seeded_results",
    "C68_map_seeded_refuted",
    "C68_list_seeded_refuted"
   ],
   "note": "Proved if every insertion draws an independent number, with the number of insertions behind the keys in place of the number of keys (C60). Violated by the code: all generators start at the same constant, and n maps or lists of one element each, joined one after the other, give a tree that takes n steps, whatever the generator returns."
  },
  {
   "property": "C69",
   "status": "partial",
   "theorems": [
    "C69_skip_map",
    "C69_avl_map",
    "C69_treap_map",
    "C69_pairs_conserved",
    "C69_skip_remove_by",
    "C69_skip_changing_refuted",
    "C69_red_black_map_partial",
    "C69_red_black_returns_refuted",
    "C69_splay_map_returns",
    "C69_splay_map_partial",
    "C69_splay_remove_refuted"
   ],
   "note": "Proved for SkipMap, AvlMap and TreapMap (calls on one map). RedBlackMap: proved for calls that return; violated by the code, as remove can panic. SplayMap: all calls return; proved without remove, which is violated by the code: it can drop other pairs. A comparison that changes during a call makes SkipMap::remove free a node that is still linked."
  },
  {
   "property": "C70",
   "status": "partial",
   "theorems": [
    "C70_counts",
    "C70_average_partial",
    "C70_seeded_results_partial",
    "C70_seeded_refuted"
   ],
   "note": "Proved if every insertion draws an independent number, for maps of fewer than 2^32 keys and programs that use the set operations where C13 shows them right. Violated by the code: all generators start at the same constant, and n maps of one key each, joined one after the other, have nodes of one height, so that a lookup takes n steps, whatever the generator returns."
  },
  {
   "property": "C71",
   "status": "partial",
   "theorems": [
    "C71_counts",
    "C71_average_partial",
    "C71_seeded_results_partial",
    "C71_seeded_refuted"
   ],
   "note": "Proved if every insertion draws an independent number, for lists of fewer than 2^32 elements and programs that use + where C16 shows it right. Violated by the code: all generators start at the same constant, and n lists of one element each, joined one after the other, have nodes of one height, so that an access takes n steps, whatever the generator returns."
  },
  {
   "property": "C72",
   "status": "partial",
   "theorems": [
    "C72_leveled_opens",
    "C72_leveled_bound",
    "C72_leveled_few",
    "C72_leveled_refuted",
    "C72_tiered_opens",
    "C72_tiered_settled",
    "C72_tiered_ratio",
    "C72_tiered_flush",
    "C72_tiered_refuted"
   ],
   "note": "Which tables a lookup opens is proved exactly for both strategies. That they are few is proved for LeveledStrategy up to the tables outside of the levels, and for SizeTieredStrategy where no compaction is due; a flush that ends in an insertion makes that so or leaves fewer tables. Violated by the code: after n rounds of a removal and a flush there are n tables and a lookup opens all of them, with both strategies."
  },
  {
   "property": "C73",
   "status": "proved",
   "theorems": [
    "C73_get_reads",
    "C73_reads_bound",
    "C73_blocks",
    "C73_groups",
    "C73_groups_number",
    "C73_one_group"
   ],
   "note": "The reads are stated exactly, in bytes. Comparisons of the standard library's binary search inside of the block are not counted."
  },
  {
   "property": "C74",
   "status": "partial",
   "theorems": [
    "C74_avl",
    "C74_rb",
    "C74_rb_balanced",
    "C74_splay",
    "C74_treap",
    "C74_avl_returns",
    "C74_rb_returns",
    "C74_splay_returns",
    "C74_treap_returns",
    "C74_avl_unchanged_refuted",
    "C74_rb_unchanged_refuted",
    "C74_splay_unchanged_refuted",
    "C74_treap_unchanged_refuted"
   ],
   "note": "What each map holds after any history of calls with panicking comparisons is proved. Violated by the code: a call that panicked is expected to change nothing, but remove of AvlMap and RedBlackMap, insert, get_mut and remove of SplayMap, and insert of TreapMap lose pairs. Set operations and split_off of TreapMap: C80."
  },
  {
   "property": "C75",
   "status": "partial",
   "theorems": [
    "C75_skip",
    "C75_no_insert",
    "C75_returns",
    "C75_unchanged_refuted",
    "C75_no_leak_refuted"
   ],
   "note": "What the map shows, what it answers, and what is left in memory after any history of calls with panicking comparisons is proved; where pairs are aside, an answer is one of two, not determined. Violated by the code: an insert that panicked leaks its node and can hide pairs from lookups. Set operations: C79."
  },
  {
   "property": "C76",
   "status": "partial",
   "theorems": [
    "C76_leveled",
    "C76_tiered",
    "C76_tiered_loose",
    "C76_stuck",
    "C76_kept_refuted",
    "C76_write_refuted",
    "C76_reopen_refuted",
    "C76_compacts_refuted"
   ],
   "note": "What every call returns and leaves, whatever operation of whatever call fails, is proved; for the size-tiered strategy removed pairs may come back (C37). Violated by the code: a failing flush loses what was written since the last one, or makes the next overwriting insert panic; a failing lookup can leave a directory that cannot be opened after a successful flush; an iterator that could not be made stops all compactions. A failure in the middle of a scan is C77."
  },
  {
   "property": "C77",
   "status": "partial",
   "theorems": [
    "C77_items",
    "C77_leveled",
    "C77_tiered",
    "C77_min",
    "C77_pairs_refuted",
    "C77_len_refuted",
    "C77_max_refuted"
   ],
   "note": "What an iterator yields, whatever reads fail, is proved. Violated by the code: after an error an iterator yields pairs that were removed; len and max can return Ok with a wrong result."
  },
  {
   "property": "C78",
   "status": "partial",
   "theorems": [
    "C78_io_partial",
    "C78_returns",
    "C78_insert_fits",
    "C78_reads",
    "C78_borrow_refuted",
    "C78_merge_refuted",
    "C78_split_refuted",
    "C78_root_refuted",
    "C78_remove_len_refuted",
    "C78_clear_refuted",
    "C78_reopen_refuted"
   ],
   "note": "Proved for failures before the first operation that touches entries, and for that of the length at the end of an insertion. Violated by the code for others: a failing remove can lose the entry of another key or make lookups panic, a failing insertion can leave an entry that is iterated but not found, clear leaves a map that says it is empty, and reopening after a failed metadata write gives a wrong length or a panic. The harmful overwrites of C25 are excluded by a hypothesis."
  },
  {
   "property": "C79",
   "status": "partial",
   "theorems": [
    "C79_throws_partial",
    "C79_returns",
    "C79_no_leak_refuted"
   ],
   "note": "Proved for union, difference and symmetric_difference of all reachable maps, and for intersection of maps without common keys (with common keys the code links a level too many, C13). Violated by the code: one pair and the head node of each map leak."
  },
  {
   "property": "C80",
   "status": "partial",
   "theorems": [
    "C80_programs",
    "C80_returns",
    "C80_split_refuted"
   ],
   "note": "What every program over several maps returns and leaves is proved; the length is proved up to the pairs lost by panicking inserts. Violated by the code: a split_off that panicked has lost all pairs of its map."
  },
  {
   "property": "C81",
   "status": "partial",
   "theorems": [
    "C81_resumes",
    "C81_entries",
    "C81_into_iter_refuted",
    "C81_ends_refuted"
   ],
   "note": "What an iterator yields is proved for every pattern of failing reads. Violated by the code: into_iter panics where iter_mut returns an error, and the iterator yields errors for ever while a read fails."
  },
  {
   "property": "C82",
   "status": "partial",
   "theorems": [
    "C82_map_rarely_slow",
    "C82_map_rarely_slow_partial",
    "C82_list_rarely_slow",
    "C82_maps_rarely_slow_partial",
    "C82_lists_rarely_slow_partial"
   ],
   "note": "Proved for histories of a TreapList, and for those of a TreapMap that insert absent keys only; with the number of insertions in place of the number of keys for all histories of a TreapMap (C60 refutes the number of keys). For programs over several maps or lists proved if every insertion draws an independent number, which the code does not do (C68)."
  },
  {
   "property": "C83",
   "status": "partial",
   "theorems": [
    "C83_rb_drop",
    "C83_avl_drop_partial",
    "C83_avl_drop_refuted",
    "C83_splay_drop_refuted",
    "C83_treap_drop",
    "C83_list_drop",
    "C83_treap_seeded_refuted",
    "C83_list_seeded_refuted",
    "C83_radix_drop"
   ],
   "note": "Proved for RedBlackMap, RadixMap, single TreapMaps and TreapLists (independent numbers, number of insertions as in C60), and for AvlMap as long as only the smallest or largest key is removed. Violated by the code: n ascending insertions make a SplayMap whose drop nests n calls; an AvlMap may be deeper than any multiple of the logarithm (C07); joined treaps may be paths (C68)."
  },
  {
   "property": "C84",
   "status": "partial",
   "theorems": [
    "C84_map_rarely_slow_partial",
    "C84_list_rarely_slow_partial",
    "C84_maps_rarely_slow_partial",
    "C84_lists_rarely_slow_partial"
   ],
   "note": "Proved for all histories of maps and lists of fewer than 2^32 elements (C61 and C62 refute larger ones). For programs over several maps or lists proved if every insertion draws an independent number, which the code does not do (C70, C71), and set operations and + are used where C13 and C16 show them right."
  },
  {
   "property": "C85",
   "status": "partial",
   "theorems": [
    "C85_nodes_partial",
    "C85_align_refuted"
   ],
   "note": "Proved for entries whose alignment is at most that of u64, for every lawful allocator, layout and initial memory. Violated by the code for larger alignments: the buffer of a Vec<u64> need not be aligned for the node."
  },
  {
   "property": "C86",
   "status": "proved",
   "theorems": [
    "C86_map_memory",
    "C86_list_memory",
    "C86_blocks"
   ],
   "note": "For all histories, layouts and sizes. Averages and probabilities are over independent draws; the bound for the worst case is over all draws."
  },
  {
   "property": "C87",
   "status": "partial",
   "theorems": [
    "C87_map_partial"
   ],
   "note": "Proved for entries whose alignment is at most that of u64 (C85 refutes larger ones), for every lawful allocator, layout, encoding, memory and history."
  },
  {
   "property": "C88",
   "status": "partial",
   "theorems": [
    "C88_distance_refuted",
    "C88_distance_partial"
   ],
   "note": "Violated by the code: n pushes and pops leave an empty list that stores the distance n. Proved for all histories: every stored distance is at most the number of insertions so far."
  },
  {
   "property": "C89",
   "status": "partial",
   "theorems": [
    "C89_list_partial",
    "C89_overflow_refuted"
   ],
   "note": "Violated by the code: after as many insertions as a word can count a distance overflows in a list that never has two elements; shown with words of one byte. Proved for histories with at most half as many insertions as fit into a word, and for entries whose alignment is at most that of u64 (C85), for every lawful allocator, layout, encoding, memory and history."
  }
 ]
}