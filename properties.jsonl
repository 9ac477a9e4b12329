{"id": "C01", "title": "AvlMap behaves as an ordered map", "statement": "Every sequence of AvlMap calls (insert/remove/get/get_mut/contains_key/floor/ceil/min/max/len/is_empty/clear/iter/iter_mut/into_iter) returns exactly what the same sequence returns on a plain sorted key/value list: last write wins, insert on an existing key returns and replaces the whole old pair, remove returns the removed pair, floor/ceil/min/max are order-correct, len counts pairs; no call panics.", "quantifier": "all key types with a lawful Ord, all value types, all finite call sequences starting from new()", "why_tests_cant": "a test fixes finitely many keys and histories; rotations hit different shapes for each history", "anchors": ["src/avl_tree/map.rs: AvlMap", "src/avl_tree/tree.rs: insert, remove, get, ceil, floor, min, max", "src/avl_tree/node.rs: Node"]}
{"id": "C02", "title": "RedBlackMap behaves as an ordered map and never panics", "statement": "Every sequence of RedBlackMap calls (insert/remove/get/get_mut/contains_key/floor/ceil/min/max/len/is_empty/clear/iter/iter_mut/into_iter) returns exactly what a plain sorted list returns, and none of the internal expect/assert calls can fire.", "quantifier": "all lawful key orders, all values, all finite call sequences from new()", "why_tests_cant": "deletion in left-leaning red-black trees has many colour/shape cases; assert!(left.is_none()) depends on a global invariant", "anchors": ["src/red_black_tree/map.rs: RedBlackMap", "src/red_black_tree/tree.rs: insert, remove, remove_min, combine_subtrees, fix_root", "src/red_black_tree/node.rs: balance, shift_left, shift_right"]}
{"id": "C03", "title": "SplayMap behaves as an ordered map", "statement": "Every sequence of SplayMap calls (insert/remove/get/get_mut/contains_key/floor/ceil/min/max/len/is_empty/clear/iter/iter_mut/into_iter), including get_mut which restructures the tree, returns exactly what a plain sorted list returns, and no call panics.", "quantifier": "all lawful key orders, all values, all finite call sequences from new()", "why_tests_cant": "top-down splaying restructures on each access; the reachable shapes are unbounded", "anchors": ["src/splay_tree/map.rs: SplayMap", "src/splay_tree/tree.rs: splay, insert, remove, get_mut"]}
{"id": "C04", "title": "TreapMap behaves as an ordered map whatever the random priorities", "statement": "Every sequence of TreapMap calls (insert/remove/get/get_mut/contains_key/floor/ceil/min/max/len/is_empty/clear/iter/iter_mut/into_iter) returns exactly what a plain sorted list returns for every possible sequence of random priorities.", "quantifier": "all lawful key orders, all values, all call sequences, all priority sequences (including repeated priorities)", "why_tests_cant": "a test samples one seed; correctness must not depend on the random numbers", "anchors": ["src/treap/map.rs: TreapMap", "src/treap/tree.rs: insert, remove, merge, split", "src/treap/node.rs: Node"]}
{"id": "C05", "title": "SkipMap behaves as an ordered map whatever the random heights", "statement": "Every sequence of single-map SkipMap calls (insert/remove/get/get_mut/contains_key/floor/ceil/min/max/len/is_empty/clear/iter) returns exactly what a plain sorted list returns for every sequence of random tower heights, with no null dereference, no out-of-bounds link access and no use of a freed node.", "quantifier": "all lawful key orders, all values, all call sequences, all tower heights 0..=32", "why_tests_cant": "raw-pointer linked structure; heights are random and tests sample them; memory errors may go unnoticed", "anchors": ["src/skiplist/map.rs: SkipMap::insert, remove, get, floor, ceil, min, max, iter"]}
{"id": "C06", "title": "Ordered-map iterators yield each pair once in ascending order", "statement": "iter, iter_mut and into_iter of AvlMap, RedBlackMap, SplayMap and TreapMap yield exactly the stored pairs, each once, in strictly ascending key order; iter_mut's writes land on exactly the visited pairs.", "quantifier": "every reachable tree of every map, any shape", "why_tests_cant": "iterators use explicit stacks; tests cover few shapes", "anchors": ["src/avl_tree/map.rs: AvlMapIter, AvlMapIterMut, AvlMapIntoIter", "src/red_black_tree/map.rs", "src/splay_tree/map.rs", "src/treap/map.rs"]}
{"id": "C07", "title": "AVL balance", "statement": "The heights of the two child subtrees of any AvlMap node differ by at most one (doc comment), so depth is logarithmic.", "quantifier": "all nodes of all maps reachable by any call sequence", "why_tests_cant": "a balance violation is invisible to functional tests", "anchors": ["src/avl_tree/map.rs: AvlMap doc", "src/avl_tree/tree.rs: balance, remove_min, combine_subtrees"]}
{"id": "C08", "title": "Red-black balance", "statement": "Every reachable RedBlackMap is a left-leaning red-black tree: equal black height on all paths, no red right child, no two reds in a row, so depth is at most 2*log2(n+1).", "quantifier": "all maps reachable by any call sequence", "why_tests_cant": "invisible to functional tests; must hold for every history", "anchors": ["src/red_black_tree/tree.rs", "src/red_black_tree/node.rs"]}
{"id": "C09", "title": "Treap heap order and length bookkeeping", "statement": "In every reachable TreapMap each node's priority is at least its children's and len() equals the number of stored pairs after every operation including set operations and split_off.", "quantifier": "all histories, all priorities", "why_tests_cant": "cached lengths and priorities are internal; drift shows only in rare histories", "anchors": ["src/treap/node.rs: update", "src/treap/tree.rs"]}
{"id": "C10", "title": "Treap shape is history independent", "statement": "The tree built by any history of calls whose stored pairs have pairwise distinct priorities depends only on the final set of (key, value, priority) triples, not on the order of operations; a key's priority is the largest one drawn for it since it was last absent.", "quantifier": "all histories, all distinct priorities", "why_tests_cant": "quantifies over pairs of histories", "anchors": ["src/treap/tree.rs: insert, remove, merge, split"]}
{"id": "C11", "title": "Treap set algebra", "statement": "union, intersection, difference and symmetric_difference of two TreapMaps contain exactly the keys demanded by set algebra; for keys in both operands the left operand's pair is kept; len is right.", "quantifier": "all pairs of reachable maps, all priorities", "why_tests_cant": "recursive divide and conquer over two trees; combinatorially many shape pairs", "anchors": ["src/treap/tree.rs: union, intersection, subtract", "src/treap/map.rs: union, intersection, difference, symmetric_difference"]}
{"id": "C12", "title": "Treap split_off partitions at the key", "statement": "split_off(k, inclusive): with inclusive = true the map keeps exactly the pairs with key <= k and returns exactly those with key > k; with inclusive = false it keeps exactly the pairs with key < k and returns exactly those with key >= k.", "quantifier": "all reachable maps, all keys present or absent", "why_tests_cant": "inclusive/exclusive boundary cases for every shape", "anchors": ["src/treap/map.rs: split_off", "src/treap/tree.rs: split_off"]}
{"id": "C13", "title": "SkipMap set algebra", "statement": "union, intersection, difference and symmetric_difference of SkipMaps return the maps demanded by set algebra without touching memory they do not own.", "quantifier": "all pairs of reachable maps, all tower heights", "why_tests_cant": "the pointer surgery is tower-height dependent; tests use tiny maps with random heights", "anchors": ["src/skiplist/map.rs: union, intersection, map_difference"]}
{"id": "C14", "title": "TreapList behaves as a sequence", "statement": "Every sequence of TreapList calls (insert, remove, push/pop front/back, get, get_mut, len, clear, iter, +) returns exactly what a plain list returns for all random priorities; insert/remove panic exactly for out-of-range indices.", "quantifier": "all value types, all call sequences, all indices, all priorities", "why_tests_cant": "index arithmetic in an implicit treap depends on cached sizes", "anchors": ["src/treap/list.rs: TreapList", "src/treap/implicit_tree.rs"]}
{"id": "C15", "title": "SkipList behaves as a sequence", "statement": "Every sequence of SkipList calls (insert, remove, push/pop front/back, get, get_mut, len, clear, iter) returns exactly what a plain list returns for all tower heights.", "quantifier": "all value types, all call sequences, all heights", "why_tests_cant": "distance bookkeeping on random towers", "anchors": ["src/skiplist/list.rs: SkipList"]}
{"id": "C16", "title": "SkipList concatenation", "statement": "list_a + list_b holds the elements of a followed by those of b and stays correct under further calls.", "quantifier": "all pairs of reachable lists, all heights", "why_tests_cant": "concatenation relies on distances of the past-the-end links, which nothing else reads", "anchors": ["src/skiplist/list.rs: Add::add, remove"]}
{"id": "C17", "title": "TypedArena handles stay valid and distinct", "statement": "An entry returned by allocate reads back its own value until it is freed; allocating or freeing other entries never changes it; two live entries never alias; access to a freed or foreign entry is rejected. Holds also after rejected calls and for chunk size zero.", "quantifier": "all interleavings of allocate/free/write, all chunk sizes", "why_tests_cant": "free-list threading through vacated slots; aliasing shows only after specific histories", "anchors": ["src/arena.rs: TypedArena::allocate, free, get, get_mut, is_valid_entry"]}
{"id": "C18", "title": "RadixMap behaves as a lexicographic byte-string map", "statement": "Every sequence of RadixMap calls (insert/remove/get/contains_key/min/max/len/iter/clear) returns what a sorted list ordered by lexicographic byte order returns.", "quantifier": "all byte-string keys (including the empty key and prefixes of each other), all values, all call sequences", "why_tests_cant": "prefix splitting/merging cases multiply with key sets", "anchors": ["src/radix/map.rs: RadixMap", "src/radix/tree.rs: insert, remove, get, min, max", "src/radix/node.rs"]}
{"id": "C19", "title": "RadixMap stays usable after it becomes empty", "statement": "After the last key is removed (or remove is called on an empty map) the map behaves as an empty map: later inserts succeed.", "quantifier": "all histories that reach the empty map", "why_tests_cant": "tests remove everything only at the very end", "anchors": ["src/radix/tree.rs: remove, insert", "src/radix/node.rs: get_replacement_tree"]}
{"id": "C20", "title": "RadixMap longest-prefix query", "statement": "get_longest_prefix(k) returns exactly the stored keys that share the longest common prefix with k.", "quantifier": "all reachable maps, all query strings", "why_tests_cant": "depends on where the query leaves the tree: inside an edge, at a node, or at a missing child", "anchors": ["src/radix/tree.rs: get_longest_prefix", "src/radix/map.rs: get_longest_prefix"]}
{"id": "C21", "title": "RadixMap stays compact", "statement": "Apart from the root every node without a value has at least two children and sibling edges start with different bytes in ascending order, so the number of nodes is at most twice the number of keys plus one.", "quantifier": "all reachable maps", "why_tests_cant": "internal shape is invisible to functional tests", "anchors": ["src/radix/node.rs: merge, split, insert_child", "src/radix/tree.rs: remove"]}
{"id": "C22", "title": "TreiberStack is linearizable", "statement": "In every interleaving of concurrent push and try_pop calls, the calls appear to take effect atomically in some order consistent with real time as on a sequential LIFO stack; no pushed value is popped twice or lost.", "quantifier": "any number of threads, any interleaving of the individual atomic steps", "why_tests_cant": "interleavings cannot be enumerated by tests", "anchors": ["src/sync/stack.rs: push, try_pop"]}
{"id": "C23", "title": "TreiberStack len", "statement": "len() is exact when no call is in progress, and at every moment it is at most the number of pushes started and never negative.", "quantifier": "any number of threads, any interleaving", "why_tests_cant": "needs a rare schedule between the CAS and the counter update", "anchors": ["src/sync/stack.rs: push, try_pop, len"]}
{"id": "C24", "title": "Popped values are dropped exactly once", "statement": "A value that went through a TreiberStack, or through a SkipMap/SkipList into_iter, is dropped exactly once.", "quantifier": "all executions", "why_tests_cant": "double drops of plain data are silent in tests", "anchors": ["src/sync/stack.rs: try_pop", "src/skiplist/map.rs: SkipMapIntoIter", "src/skiplist/list.rs: SkipListIntoIter"]}
{"id": "C25", "title": "BpMap behaves as an ordered map", "statement": "Every sequence of BpMap calls (insert/remove/get/contains_key/len/min/max/iter_mut/clear) returns what a plain sorted list returns, for every leaf and internal degree the constructors accept.", "quantifier": "all lawful key orders, all values, all degrees, all call sequences", "why_tests_cant": "splits, merges and borrows interact over unbounded heights", "anchors": ["src/bp_tree/map.rs: BpMap::insert, remove, get, min, max, iter_mut", "src/bp_tree/node.rs"]}
{"id": "C26", "title": "BpMap overwrite keeps all other entries", "statement": "Inserting an existing key changes only that key's value.", "quantifier": "all maps, all degrees", "why_tests_cant": "needs a full leaf and a key in its upper part", "anchors": ["src/bp_tree/node.rs: LeafNode::insert", "src/bp_tree/map.rs: insert"]}
{"id": "C27", "title": "BpMap leaf node operations", "statement": "Leaf insert/split/remove/merge keep entries sorted and packed, lose nothing and split into two halves that respect the minimum occupancy.", "quantifier": "all leaves, all degrees >= 1", "why_tests_cant": "index arithmetic for odd and even degrees", "anchors": ["src/bp_tree/node.rs: LeafNode::insert, insert_and_split, remove, remove_at, merge, search"]}
{"id": "C28", "title": "BpMap internal node operations", "statement": "Internal insert/split/remove_at/merge keep the key/child sequence in order, lose no child and split correctly for every degree >= 2; binary search finds the child whose range contains the key.", "quantifier": "all internal nodes, all degrees", "why_tests_cant": "off-by-one errors depend on parity of the degree and on the insertion side", "anchors": ["src/bp_tree/node.rs: InternalNode::insert, remove_at, merge, search"]}
{"id": "C29", "title": "BpMap page store neither leaks nor double-allocates pages", "statement": "Pages in use and pages on the free list are disjoint and together are exactly the pages of the file; an allocated page is never one still in use.", "quantifier": "all call sequences on the pager and the map", "why_tests_cant": "free-list corruption shows up only much later", "anchors": ["src/bp_tree/pager.rs: allocate_node, deallocate_node"]}
{"id": "C30", "title": "BpMap pages decode to what was written", "statement": "Reading a page after writing a node returns the same node; metadata likewise; so closing and reopening the file yields the same map.", "quantifier": "all nodes, metadata and keys/values whose serialization fits", "why_tests_cant": "serialization boundaries", "anchors": ["src/bp_tree/pager.rs: get_page, write_node, get_metadata", "src/bp_tree/node.rs: Node"]}
{"id": "C31", "title": "A BpMap node never overflows its page", "statement": "The serialized form of any node fits in the page size chosen by the constructors, so writing one node never modifies another page.", "quantifier": "all key/value types and sizes, all degrees", "why_tests_cant": "depends on type layout (niches) and on completely filled nodes", "anchors": ["src/bp_tree/node.rs: get_max_size, get_degree, get_payload_size", "src/bp_tree/pager.rs: write_node"]}
{"id": "C32", "title": "BpMap works with every internal degree", "statement": "BpMap::with_degrees and BpMap::new either reject a degree or behave correctly with it, in particular the small internal degrees produced by large keys.", "quantifier": "all internal degrees", "why_tests_cant": "tests use degrees of at least 3", "anchors": ["src/bp_tree/map.rs: with_degrees, insert, remove", "src/bp_tree/node.rs: InternalNode::insert"]}
{"id": "C33", "title": "SSTable point lookup", "statement": "SSTable::get(k) returns the value appended for k if there is one and None otherwise, for every block size.", "quantifier": "all strictly ascending key sequences, all values, all entry-count hints > 0, any Bloom filter without false negatives", "why_tests_cant": "block boundaries and binary searches", "anchors": ["src/lsm_tree/sstable.rs: SSTableBuilder::append, flush, SSTable::get, floor_offset"]}
{"id": "C34", "title": "SSTable iteration and summary", "statement": "Iterating a flushed SSTable yields exactly the appended entries in order; its summary has the exact entry count, tombstone count, key range and logical time range.", "quantifier": "all append sequences", "why_tests_cant": "byte-level framing", "anchors": ["src/lsm_tree/sstable.rs: SSTableBuilder, SSTableDataIter, SSTableSummary"]}
{"id": "C35", "title": "Merging iterators yield the newest version of each key once", "statement": "The size-tiered and leveled merge iterators yield, in ascending key order, each key present in any input exactly once with its most recent version.", "quantifier": "any number of sorted runs of any length", "why_tests_cant": "heap-based k-way merge with ties", "anchors": ["src/lsm_tree/compaction/size_tiered.rs: SizeTieredIter", "src/lsm_tree/compaction/leveled.rs: LeveledIter"]}
{"id": "C36", "title": "LsmMap with LeveledStrategy behaves as an ordered map under background compaction", "statement": "Every get/contains_key/len/iter returns what a plain map returns, no matter when the background compaction finishes.", "quantifier": "all call sequences, all configurations with positive limits, all compaction timings", "why_tests_cant": "compaction timing is nondeterministic", "anchors": ["src/lsm_tree/map.rs: LsmMap", "src/lsm_tree/compaction/leveled.rs: compact, try_replace_metadata, try_compact, get"]}
{"id": "C37", "title": "LsmMap with SizeTieredStrategy behaves as an ordered map under background compaction", "statement": "Every get/contains_key/len/iter returns what a plain map returns, in particular a removed key stays removed across compactions.", "quantifier": "all call sequences, all configurations, all compaction timings", "why_tests_cant": "resurrection needs a particular sequence of compactions", "anchors": ["src/lsm_tree/compaction/size_tiered.rs: compact, try_replace_metadata, get_compaction_range", "src/lsm_tree/map.rs"]}
{"id": "C38", "title": "LsmMap min and max", "statement": "min() and max() return the smallest and largest key present.", "quantifier": "all call sequences", "why_tests_cant": "needs a removed key whose insertion is already on disk", "anchors": ["src/lsm_tree/map.rs: min, max"]}
{"id": "C39", "title": "LsmMap len_hint is an upper bound on len", "statement": "len_hint() is never less than the number of keys present.", "quantifier": "all call sequences, all compaction timings", "why_tests_cant": "depends on how tombstones are counted over all tables", "anchors": ["src/lsm_tree/map.rs: len_hint", "src/lsm_tree/compaction/leveled.rs: len_hint", "src/lsm_tree/compaction/size_tiered.rs: len_hint"]}
{"id": "C40", "title": "LsmMap flush is durable", "statement": "After flush, reopening the directory gives a map with the same contents, and later writes still win over earlier ones.", "quantifier": "all call sequences and reopen points", "why_tests_cant": "recency across a reopen depends on the persisted logical clock", "anchors": ["src/lsm_tree/map.rs: flush", "src/lsm_tree/compaction/leveled.rs: open, try_compact", "src/lsm_tree/compaction/size_tiered.rs: open"]}
{"id": "C41", "title": "LsmMap crash safety", "statement": "If the process dies between two file operations, reopening succeeds and shows every write that had been flushed.", "quantifier": "all crash points of all operations", "why_tests_cant": "crash points cannot be hit reliably by tests", "anchors": ["src/lsm_tree/compaction/leveled.rs: try_replace_metadata, get", "src/lsm_tree/compaction/size_tiered.rs: try_replace_metadata"]}
{"id": "C42", "title": "Open LSM iterators are not invalidated by compaction", "statement": "While an iterator is alive no table file it still has to read is deleted by inserts, removes, gets or flushes.", "quantifier": "all interleavings of iterator use and map calls, all compaction timings", "why_tests_cant": "file deletion depends on when compaction finishes", "anchors": ["src/lsm_tree/compaction/leveled.rs: metadata_lock_count, try_compact, iter", "src/lsm_tree/compaction/size_tiered.rs"]}
{"id": "C43", "title": "Leveled levels stay disjoint", "statement": "Two SSTables of the same level never overlap (doc comment), whatever is compacted.", "quantifier": "all compaction inputs", "why_tests_cant": "range arithmetic over arbitrary tables", "anchors": ["src/lsm_tree/compaction/leveled.rs: compact, insert_sstable"]}
{"id": "C44", "title": "Leveled compaction terminates", "statement": "A compaction run always finishes for every accepted configuration.", "quantifier": "all configurations and inputs", "why_tests_cant": "non-termination for edge configurations", "anchors": ["src/lsm_tree/compaction/leveled.rs: compact"]}
{"id": "C45", "title": "Set types behave as ordered sets", "statement": "AvlSet, RedBlackSet, SplaySet, TreapSet, SkipSet and RadixSet return what a plain sorted list of distinct keys returns.", "quantifier": "all lawful key orders, all call sequences", "why_tests_cant": "same as for the maps", "anchors": ["src/avl_tree/set.rs", "src/red_black_tree/set.rs", "src/splay_tree/set.rs", "src/treap/set.rs", "src/skiplist/set.rs", "src/radix/set.rs"]}
{"id": "C46", "title": "Splaying brings the accessed key to the root", "statement": "After insert(k) or a successful get_mut(k) on a SplayMap, k is at the root, so repeated access to it is constant time.", "quantifier": "all reachable maps, all keys", "why_tests_cant": "shape property", "anchors": ["src/splay_tree/tree.rs: splay, insert, get_mut"]}
{"id": "C47", "title": "TypedArena reuses freed slots and never outgrows its chunks", "statement": "allocate reuses the most recently freed slot before making a new one, so the number of slots equals the largest number of simultaneously live values, and no chunk grows beyond the capacity it was created with (doc comment: no memory is reallocated).", "quantifier": "all chunk sizes and all histories of allocate/free/get/get_mut/index calls, including rejected ones", "why_tests_cant": "Needs an invariant over all histories; the free list is only lost after a caught panic, which unit tests with should_panic never continue from.", "anchors": ["src/arena.rs: TypedArena::allocate, free, get, get_mut, is_valid_entry"]}
{"id": "C48", "title": "TreiberStack is lock-free", "statement": "Once a push or try_pop call has allocated its node, within six of its own steps it returns, or some call (its own or another thread's) changed the stack.", "quantifier": "any number of threads, any interleaving, from every reachable state", "why_tests_cant": "a livelock needs an adversarial schedule", "anchors": ["src/sync/stack.rs: push, try_pop"]}
{"id": "C49", "title": "SkipMap owns exactly its nodes", "statement": "After any single-map history a SkipMap has one live node per stored pair plus the head; dropping it frees every node once and drops every stored pair once.", "quantifier": "all lawful key orders, all call sequences, all tower heights", "why_tests_cant": "leaks and double frees of raw nodes are invisible to assertions", "anchors": ["src/skiplist/map.rs: insert, remove, clear, Drop"]}
{"id": "C50", "title": "SkipList owns exactly its nodes", "statement": "After any single-list history a SkipList has one live node per element plus the head; dropping it frees every node once and drops every element once.", "quantifier": "all element types, all call sequences, all tower heights", "why_tests_cant": "leaks and double frees of raw nodes are invisible to assertions", "anchors": ["src/skiplist/list.rs: Node, insert, remove, clear, drop"]}
{"id": "C51", "title": "SplayMap makes recently accessed keys cheap: amortised logarithmic time", "statement": "Any sequence of calls on a new SplayMap compares O(log n) keys per call on average, where n is the number of keys present (doc comment: recently accessed items are quick to access again; after each operation the item accessed is splayed to the root).", "quantifier": "all lawful key orders, all call sequences", "why_tests_cant": "an amortised bound over all histories needs a potential argument; a single slow call is allowed", "anchors": ["src/splay_tree/tree.rs: splay, insert, remove, get, get_mut", "src/splay_tree/map.rs"]}
{"id": "C52", "title": "RedBlackMap and AvlMap calls take logarithmic time", "statement": "Each insert, remove, get, get_mut, contains_key, floor, ceil, min and max on a RedBlackMap or an AvlMap visits O(log n) nodes and compares O(log n) keys, where n is the number of keys present at that moment (doc comments: the trees remain balanced during insertions and deletions).", "quantifier": "every key type with a lawful order, every history of calls, every call in it", "why_tests_cant": "the bound is about the worst history of any length; the trees that break it are reached only by long, targeted sequences of removals", "anchors": ["src/red_black_tree/tree.rs: insert, remove, get, ceil, floor, min, max", "src/avl_tree/tree.rs: insert, remove, remove_min, get"]}
{"id": "C53", "title": "BpMap survives a crash in the middle of a call", "statement": "If the process dies at any point during a call of BpMap, the file it leaves opens as the map before the call or as the map after it.", "quantifier": "all lawful key orders and types, all degrees, all call histories, every call and every point between two changes of the file", "why_tests_cant": "tests would have to kill the process between two particular writes of every shape of split, merge and page reuse", "anchors": ["src/bp_tree/pager.rs: allocate_node, deallocate_node, write_node, clear, set_len, set_root_page, open", "src/bp_tree/map.rs: insert, remove, clear"]}
{"id": "C54", "title": "What an LsmMap works with is what is in its files", "statement": "Every table an LsmMap refers to can be read back from its four files with the same entries, versions and summary, and the summary's size is the number of bytes of its data and index files.", "quantifier": "all lawful key orders, encodings and Bloom filters, both strategies, all configurations, call histories and thread timings", "why_tests_cant": "tests compare results of single tables with default sizes; the size is never compared with the files", "anchors": ["src/lsm_tree/sstable.rs: SSTableBuilder, SSTable::new, get, data_iter", "src/lsm_tree/map.rs: try_compact", "src/lsm_tree/compaction/leveled.rs: compact", "src/lsm_tree/compaction/size_tiered.rs: compact"]}
{"id": "C55", "title": "The directory of an LsmMap opens as the map that wrote it", "statement": "The bytes of metadata.dat and logical_time.dat, written over whatever was there before, and the table directories open as the configuration, tables, levels and logical time that were written; a missing table is an error; a write of either file that is cut short by a crash leaves a directory that opens, with a clock that does not go back.", "quantifier": "all lawful key orders and encodings, both strategies, all call histories, all previous contents of the files, all points at which a write can be cut", "why_tests_cant": "tests reopen a few maps that were closed cleanly; they never leave longer old contents or cut a write", "anchors": ["src/lsm_tree/compaction/leveled.rs: new, open, try_compact, get_and_increment_logical_time", "src/lsm_tree/compaction/size_tiered.rs: new, open, try_compact, get_and_increment_logical_time", "src/lsm_tree/sstable.rs: Serialize, Deserialize for SSTable"]}
{"id": "C56", "title": "A leveled LsmMap keeps few tables and few levels", "statement": "A level of an LsmMap with LeveledStrategy holds no more tables than its limit, the number of levels is logarithmic in the number of calls, and after a flush no more tables than max_sstable_count lie outside of the levels.", "quantifier": "all lawful key orders, all configurations whose limits at least double and do not overflow, all call sequences and thread timings", "why_tests_cant": "tests never look at the tables; the violation shows only as growing disk use and ever slower flushes", "anchors": ["src/lsm_tree/compaction/leveled.rs: compact, try_replace_metadata, try_compact, flush"]}
{"id": "C57", "title": "The memory orderings of TreiberStack suffice", "statement": "With the orderings written in the code (relaxed, acquire, release) and not only with sequentially consistent memory: no thread reads a destroyed node or one whose initialisation it has not seen; the results of all calls of push and try_pop are those of a sequential stack in one order for all threads that respects the order of each thread and everything threads know of each other by synchronisation; a call of len counts at least the calls that happened before it and is exact for a thread that knows of all calls. Real time between threads that do not know of each other is not respected.", "quantifier": "any number of threads, any schedule, any choice of the message a load may read, any reuse of addresses, any moment of reclamation that crossbeam_epoch allows", "why_tests_cant": "x86 hides missing orderings; stale reads need particular hardware and timing", "anchors": ["src/sync/stack.rs: push, try_pop, len"]}
{"id": "C58", "title": "The compaction thread may get on inside a call of LsmMap", "statement": "Wherever the compaction thread gets on between the actions inside calls of LsmMap, nothing panics and the calls return what the specification says (with SizeTieredStrategy, up to removed pairs that come back); no table that the thread reads is removed meanwhile; every call returns, if the thread does.", "quantifier": "all lawful key orders, both strategies, all configurations with positive limits, all call sequences, all orders of turns of caller and thread", "why_tests_cant": "the thread hits a given gap between two actions of a call only by luck", "anchors": ["src/lsm_tree/map.rs: try_compact, insert, remove, get, flush, clear, iter, min, max", "src/lsm_tree/compaction/leveled.rs: try_replace_metadata, try_compact, flush, clear", "src/lsm_tree/compaction/size_tiered.rs: try_replace_metadata, try_compact, flush, clear"]}
{"id": "C59", "title": "A crash inside a call of LsmMap, with the thread at work, leaves a usable directory", "statement": "A crash at any point of any action of a call or of the compaction thread at which no table was removed since metadata.dat was last written leaves a directory that opens to a map as it was flushed before or after the call under way, with or without some of the calls since; the opened map goes on as specified, through further crashes.", "quantifier": "all lawful key orders, both strategies, all configurations with positive limits, all call sequences, all orders of turns, all intact crash points, any number of crashes", "why_tests_cant": "tests do not crash the process between file operations", "anchors": ["src/lsm_tree/map.rs: try_compact, open", "src/lsm_tree/compaction/leveled.rs: try_replace_metadata, try_compact, open", "src/lsm_tree/compaction/size_tiered.rs: try_replace_metadata, try_compact, open"]}
{"id": "C60", "title": "Treaps take logarithmic time on average", "statement": "If the priorities are independent and equally likely, then a call of TreapMap that looks for a single key takes O(log n) steps on average for n keys in the map, and a call of TreapList that looks for an index takes O(log n) steps on average for a list of length n.", "quantifier": "all lawful key orders, all call sequences fixed in advance, every number of possible priorities (equal priorities included)", "why_tests_cant": "an average over all sequences of random numbers; the generator of the code is seeded with a constant", "anchors": ["src/treap/tree.rs: merge, split, insert, remove, get", "src/treap/implicit_tree.rs: merge, split, insert, remove, get", "src/treap/map.rs", "src/treap/list.rs"]}
{"id": "C61", "title": "Skip maps take logarithmic time on average", "statement": "If the numbers drawn for the heights are independent and equally likely below 2^32, then a call of SkipMap that looks for a single key takes O(log n) steps on average when the map holds n keys, and an insertion or removal at most log2 n plus a constant.", "quantifier": "all lawful key orders, all call sequences fixed in advance, all positions in them", "why_tests_cant": "an average over all sequences of random numbers; large maps are out of reach", "anchors": ["src/skiplist/map.rs: insert, remove, get, get_mut, contains_key, floor, ceil, get_starting_height, gen_random_height"]}
{"id": "C62", "title": "Skip lists take logarithmic time on average", "statement": "If the numbers drawn for the heights are independent and equally likely below 2^32, then a call of SkipList that looks for an index takes at most log2 n steps plus a constant on average when the list has n elements.", "quantifier": "all element types, all call sequences fixed in advance, all positions in them", "why_tests_cant": "an average over all sequences of random numbers", "anchors": ["src/skiplist/list.rs: insert, remove, push_front, push_back, pop_front, pop_back, get, get_mut, index, gen_random_height"]}
{"id": "C63", "title": "Calls of the on-disk map access few pages", "statement": "With n keys in a BpMap of leaf degree m and internal degree d, a lookup reads at most j+1 pages, an insertion accesses the file at most 5j+10 times and a removal at most 5j+5 times, where j is the least number with n < m*ceil(d/2)^j; iteration reads j+1 pages and one for each ceil(m/2) keys.", "quantifier": "all lawful key orders, all call sequences, all degrees that C25 covers", "why_tests_cant": "a bound for every history and degree; depends on every node staying half full through all splits, merges and borrowings", "anchors": ["src/bp_tree/map.rs: insert, remove, get, contains_key, min, max, iter_mut", "src/bp_tree/pager.rs: get_page, allocate_node, deallocate_node, write_node, set_len, set_root_page"]}
{"id": "C64", "title": "RadixMap calls take time proportional to the key, whatever the map contains", "statement": "A call of RadixMap that is given a key of n bytes, or min or max returning one, takes at most 514*(n+1) steps (nodes entered, children looked at, bytes compared) however many keys the map holds; get_longest_prefix takes at most 258*(n+1) steps and two for each key it returns.", "quantifier": "all value types, all call sequences, all keys", "why_tests_cant": "a bound for every history; depends on the children of a node having different first bytes and on no chain of nodes without branching", "anchors": ["src/radix/tree.rs: insert, remove, get, get_mut, get_longest_prefix, min, max", "src/radix/node.rs: get, get_mut, insert_child, push_all_children, max"]}
{"id": "C65", "title": "An LsmMap leaves no files behind", "statement": "Every directory on disk is the directory of a table that the current metadata, or those a compaction has made for installation, refer to; a directory no longer referred to is removed; clear removes everything.", "quantifier": "all orders, all call sequences with any steps of the compaction thread, all configurations", "why_tests_cant": "depends on what every compaction of any history builds and drops", "anchors": ["src/lsm_tree/compaction/leveled.rs: try_replace_metadata, compact, merge_sstables, clear", "src/lsm_tree/compaction/size_tiered.rs: try_replace_metadata, compact, clear", "src/lsm_tree/sstable.rs: SSTableBuilder::new"]}
{"id": "C66", "title": "The in-memory part of an LsmMap stays within its limit, and is written out only when it would exceed it", "statement": "The encoded size of the entries in memory is never above max_in_memory_size after a call; a write empties the memory exactly if the entries, with the written one, would be larger than that.", "quantifier": "all lawful key orders, all strategies, all call sequences", "why_tests_cant": "an invariant of a counter that is updated incrementally over any history of overwrites, flushes, clears and reopenings", "anchors": ["src/lsm_tree/map.rs: insert, remove, clear, flush, try_compact"]}
{"id": "C67", "title": "The iterator of BpMap returns the entries one by one and reads only the pages it needs", "statement": "The k-th call of next of iter_mut returns the k-th entry of the map in key order, and None from then on, leaving the file unchanged; after n calls the file has been read at most once for each level of the tree and each half-full leaf's worth of entries returned.", "quantifier": "all key orders, all degrees, all call sequences, any number of calls of next", "why_tests_cant": "any history of splits and merges must keep the chain of leaves complete, and the bound on reads holds for every stopping point", "anchors": ["src/bp_tree/map.rs: iter_mut, BpMapIterMut::next", "src/bp_tree/node.rs: next_leaf"]}
{"id": "C68", "title": "Programs over several treaps run in logarithmic average time", "statement": "In a program over several TreapMaps or TreapLists, a call that looks for a key or an index, split_off and the concatenation of lists take a number of steps logarithmic in the size of the collections used, on average over the priorities drawn; a set operation takes that number for each key of the two maps.", "quantifier": "all lawful key orders, all programs over any number of maps or lists, all numbers of possible priorities", "why_tests_cant": "an average over all sequences of random numbers, in every program; a run of a test sees one sequence, which is the same in every run", "anchors": ["src/treap/tree.rs: split, merge, union, intersection, difference", "src/treap/implicit_tree.rs: merge", "src/treap/map.rs: new, insert, split_off, union", "src/treap/list.rs: new, insert, add"]}
{"id": "C69", "title": "Maps survive keys that are not ordered", "statement": "Whatever the comparison of keys answers, and even if it answers differently in each call, every call of a map returns, a call that looks for a key finds a pair whose key compares equal or nothing, insert and remove change no other pair, no pair is lost or invented, len is the number of pairs and, for the maps with raw pointers, no freed node is read and every node is freed.", "quantifier": "all functions as comparisons, one for each call, all call sequences, all random numbers", "why_tests_cant": "tests use orders; memory safety must hold for every implementation of Ord, also wrong ones", "anchors": ["src/skiplist/map.rs: insert, remove, get", "src/avl_tree/tree.rs: insert, remove", "src/red_black_tree/tree.rs: insert, remove", "src/splay_tree/tree.rs: splay, insert, remove", "src/treap/tree.rs: split, insert, remove"]}
{"id": "C70", "title": "Programs over several skip maps run in the expected average time", "statement": "In a program over several SkipMaps, a call that looks for a key takes a number of steps logarithmic in the size of the map, and a set operation a number linear in the size of its two maps, on average over the numbers drawn.", "quantifier": "all lawful key orders, all programs over any number of maps, all sequences of random numbers", "why_tests_cant": "an average over all sequences of random numbers, in every program; a run of a test sees one sequence, which is the same in every run", "anchors": ["src/skiplist/map.rs: new, insert, union, intersection, difference, symmetric_difference"]}
{"id": "C71", "title": "Programs over several skip lists run in logarithmic average time", "statement": "In a program over several SkipLists, a call that looks for an index and the concatenation of two lists take a number of steps logarithmic in the size of the list, or the left list, on average over the numbers drawn.", "quantifier": "all programs over any number of lists, all sequences of random numbers", "why_tests_cant": "an average over all sequences of random numbers, in every program; a run of a test sees one sequence, which is the same in every run", "anchors": ["src/skiplist/list.rs: new, insert, remove, get, add"]}
{"id": "C72", "title": "Lookups in an LsmMap open few tables", "statement": "A lookup of a key that is in memory opens no table. Any other opens, of the tables whose range and Bloom filter admit the key, with LeveledStrategy those outside of the levels and then at most one for each level until one has the key, and with SizeTieredStrategy all; with SizeTieredStrategy the number of tables stays within the configured number for each size class.", "quantifier": "all lawful key orders, all sequences of calls and steps of the compaction thread, all configurations, all false positives of the Bloom filters, all keys", "why_tests_cant": "a bound over every history and every interleaving with compaction; tests check the value that a lookup returns, not what it opens", "anchors": ["src/lsm_tree/compaction/leveled.rs: get", "src/lsm_tree/compaction/size_tiered.rs: get, get_compaction_range, compact", "src/lsm_tree/sstable.rs: get", "src/lsm_tree/map.rs: get"]}
{"id": "C73", "title": "A lookup in a sorted string table reads one index block and one entry", "statement": "A lookup in an SSTable reads nothing if the key is outside of the table's range or the Bloom filter rejects it; otherwise it reads exactly one block of the index, which has at most the square root of the number of entries many entries, and, if the table has the key, exactly the bytes of its entry; the search for the block takes a number of comparisons logarithmic in the number of blocks.", "quantifier": "all lawful key orders and codecs, all Bloom filters without false negatives, all entries, all block sizes, all keys", "why_tests_cant": "tests check the value that a lookup returns, not the bytes that it reads; the block structure depends on the number of entries", "anchors": ["src/lsm_tree/sstable.rs: SSTableBuilder::append, flush; SSTable::floor_offset, get"]}
{"id": "C74", "title": "What a tree map holds after a comparison of keys panicked", "statement": "If a comparison of keys panics in a call of a tree map and the caller catches the panic, then all later calls still answer as an ordered map does, from the pairs that are left, and none panics by itself. The pairs that are left are: for AvlMap and RedBlackMap all of them, or none if the call was remove; for SplayMap a contiguous part around the key, or none after remove of a key that is there; for TreapMap all, or all but a contiguous part around the key if the call was insert. len() is never below the number of pairs, and how far above it can be is stated. A user expects that nothing changed, which is refuted.", "quantifier": "all lawful key orders, all histories of calls, all choices of the comparison that panics in each call, all treap priorities", "why_tests_cant": "no test panics inside of a comparison; there is one state for every call and every comparison in it", "anchors": ["src/avl_tree/tree.rs: insert, remove", "src/red_black_tree/tree.rs: insert, remove", "src/splay_tree/tree.rs: splay, insert, remove, get_mut", "src/treap/tree.rs: split, insert, remove"]}
{"id": "C75", "title": "What a SkipMap does after a comparison of keys panicked", "statement": "If a comparison of keys panics in a call of a SkipMap and the caller catches the panic, no later call panics by itself, runs forever or uses freed memory. The pairs that iteration shows are in strictly ascending order and a call that panicked changes none of them. If the call was not insert it changes nothing at all. An insert that panicked puts its pair aside: it is counted by len(), never freed, and later calls may answer from the pairs aside, and put pairs aside, instead of answering from those shown. After the map is dropped exactly the nodes aside are left in memory. A user expects that nothing changed and nothing leaks, which is refuted.", "quantifier": "all lawful key orders, all histories of calls, all choices of the comparison that panics in each call, all drawn heights", "why_tests_cant": "no test panics inside of a comparison; there is one state for every call, every comparison in it and every drawn height", "anchors": ["src/skiplist/map.rs:141-187 (insert)", "src/skiplist/map.rs:202-241 (remove)", "src/skiplist/map.rs:276-347 (get, get_mut)", "src/skiplist/map.rs:391-551 (clear, floor, ceil, min, max)", "src/skiplist/map.rs:939-1087 (drop, iterators)"]}
{"id": "C76", "title": "What an LsmMap does after an operation on files failed", "statement": "If an operation on files fails in a call of an LsmMap and the caller goes on with the map after the Err, then no later call panics and what later calls return agrees with an ordered map that holds everything flushed before; of what was written since, it holds everything or everything up to some point. The caller has to flush (or clear) successfully before writing again if a flush failed, and to write and flush successfully before reopening. An Err is returned only if an operation failed. A user expects that nothing that returned Ok is lost, that writing and reopening need no care, and that compactions go on; each is refuted.", "quantifier": "all lawful key orders, all configurations with positive level limits (leveled) or all (size-tiered), all histories of calls and of the thread, all choices of the operation that fails in each call, whether or not it had its effect on the disk", "why_tests_cant": "no test makes an operation on files fail; each call has one outcome for each operation in it and each state of the thread", "anchors": ["src/lsm_tree/map.rs:90-104 (try_compact)", "src/lsm_tree/map.rs:129-202 (insert, remove)", "src/lsm_tree/map.rs:376-514", "src/lsm_tree/compaction/leveled.rs:243-292 (try_replace_metadata)", "src/lsm_tree/compaction/leveled.rs:474-680", "src/lsm_tree/compaction/size_tiered.rs:350-388", "src/lsm_tree/compaction/size_tiered.rs:398-604"]}
{"id": "C77", "title": "What iterators of an LsmMap yield when reads fail", "statement": "If reads of tables fail while an iterator of an LsmMap is used and the caller goes on with it: up to the first Err it yields exactly the pairs of the map in ascending order, and without an Err all of them. After an Err keys still ascend, every pair was written at some time, there is at most one Err for each run of tables, no call panics, and the map itself is as if no read had failed. min() returns the error or the right key. A user expects the same of len() and max(), and that the pairs yielded are in the map; each is refuted.", "quantifier": "all lawful key orders, all runs of tables that are sorted, all maps reached by any history of calls, all choices of the reads that fail", "why_tests_cant": "no test makes a read fail; each scan has one outcome for each set of reads", "anchors": ["src/lsm_tree/compaction/leveled.rs:592-640 (len, min, max)", "src/lsm_tree/compaction/leveled.rs:642-802 (iter, LeveledIter)", "src/lsm_tree/compaction/size_tiered.rs:489-637", "src/lsm_tree/sstable.rs:337-376 (SSTableDataIter)"]}
{"id": "C78", "title": "What a BpMap does after an operation on its file failed", "statement": "If operations on the file of a BpMap fail and the caller goes on: as long as every failure came before the first operation of its call that touches the entries (reads and the allocation of a page come before), or was that of the length written last by an insertion, all calls give the results of an ordered map on which the failed call was carried out (the length) or was not (all others), and none panics or runs forever; a call that only reads changes nothing in any state; an insertion that needs no new page fails without harm wherever it fails. A user expects the same of every failure; refuted for remove (moving an entry between leaves loses another key's entry; merging leaves makes lookups panic; the length is written before the leaf), for an insertion that splits, for clear, and for opening the file again when its metadata could not be written.", "quantifier": "all lawful key orders, all degrees >= 1 and >= 3, all histories of calls with a failure at any operation of any call", "why_tests_cant": "no test makes an operation on the file fail; each call has one outcome for each of its operations", "anchors": ["src/bp_tree/pager.rs:181-317", "src/bp_tree/map.rs:203-264 (insert)", "src/bp_tree/map.rs:286-466 (remove)"]}
{"id": "C79", "title": "What becomes of two SkipMaps when a comparison panics in a set operation between them", "statement": "If a comparison panics in union, intersection (of maps without common keys), difference or symmetric_difference of two SkipMaps and the panic is caught, nothing is freed or dropped twice, no freed memory is used, and all pairs but one of each map are dropped once; the two heads leak. A call in which no comparison panics returns the set operation and drops the pairs it does not return. A user expects all memory to be freed; refuted.", "quantifier": "all lawful key orders, all pairs of maps reached by any histories of calls and drawn heights, all four operations, a panic at any comparison", "why_tests_cant": "no test has a key whose comparison panics; every comparison of every pair of maps is a case of its own", "anchors": ["src/skiplist/map.rs:576-644 (union)", "src/skiplist/map.rs:668-735 (intersection)", "src/skiplist/map.rs:737-820 (difference, symmetric_difference)", "src/skiplist/map.rs:939-950 (Drop)"]}
{"id": "C80", "title": "What programs over several TreapMaps do after a comparison of keys panicked", "statement": "If comparisons panic in calls on several TreapMaps, split_off and the set operations among them, and the panics are caught: no later call fails; a set operation that panicked has emptied both maps and a split_off that panicked its map, and no result was assigned; every call that returns is right about the pairs that are left; the length of a map is at least their number and exceeds it at most by the pairs that panicking inserts lost. A user expects a split_off that panicked to change nothing; refuted.", "quantifier": "all lawful key orders, all programs over any number of maps, all priorities, a panic at any comparison of any call", "why_tests_cant": "no test has a key whose comparison panics; the cases are all comparisons of all programs", "anchors": ["src/treap/tree.rs:28-60 (split)", "src/treap/tree.rs:212-342 (set operations)", "src/treap/map.rs:323-495"]}
{"id": "C81", "title": "The iterator of a BpMap when reads of the file fail", "statement": "After any history that left the map in one piece (C78), a call of next whose read of the file fails returns the error and keeps its place: the entries yielded before, between and after errors are the entries of the map in order, none lost or repeated, and all of them if the iterator ends. Only calls that need a new page fail. A user also expects a for loop over the map to report an error of the file, and an iteration to end; both refuted.", "quantifier": "all lawful key orders, all leaf degrees >= 1 and internal degrees >= 3, all histories as in C78, any pattern of failing reads", "why_tests_cant": "no test makes a read fail; the patterns of failures are unboundedly many", "anchors": ["src/bp_tree/map.rs:709-730 (iter_mut)", "src/bp_tree/map.rs:741-743 (into_iter)", "src/bp_tree/map.rs:762-785 (next)"]}
{"id": "C82", "title": "How rarely treaps are slow and deep", "statement": "With independent random priorities a call on a TreapMap that looks for a key takes at most 4 log2(m+2) + 2s + 3 steps except with probability 2^-s, m being the number of keys, and one on a TreapList of n elements that looks for an index at most 8 log2(n+2) + 4s + 2; split_off, the set operations and + are as rarely slow. The tree, which is freed by recursion, is at most 3 log2(m+2) + s + 2 deep except with probability 2^-s, and 3 log2(m+2) + 4 on average.", "quantifier": "all lawful key orders, all histories of one map or list and all programs over several, all s, all priority ranges M of at least twice the number of keys (2^32 in the code)", "why_tests_cant": "a tail of a distribution over random numbers, for unboundedly large collections", "anchors": ["src/treap/tree.rs:28-60 (split)", "src/treap/tree.rs:62-210", "src/treap/map.rs:39-81 (the generator and insert)", "src/treap/implicit_tree.rs"]}
{"id": "C83", "title": "Freeing a tree takes little stack", "statement": "Dropping or clearing a map of n entries, or dropping an iterator by value half way, frees each remaining entry exactly once and nests at most 2 log2(n+1)+1 calls for RedBlackMap and AvlMap, 3 log2(n+2)+s+2 for TreapMap and TreapList except with probability 2^-s, and 256 times the length of the longest key plus 1 for RadixMap. A user also expects a SplayMap of any size to be freed without overflowing the stack; refuted, as for AvlMap after removals and for treaps that were joined.", "quantifier": "all lawful key orders, all histories, all numbers of calls of next before the drop", "why_tests_cant": "the stack overflows only for large maps of particular histories; each entry of each history is one case", "anchors": ["src/splay_tree/node.rs:5-9", "src/splay_tree/map.rs:218-221 (clear)", "src/avl_tree/node.rs:7-12", "src/red_black_tree/node.rs:22-27", "src/treap/node.rs:5-20", "src/radix/node.rs:4-9"]}
{"id": "C84", "title": "How rarely skip lists are slow", "statement": "With independent random heights a call on a SkipMap of n keys that looks for a key takes at most 5 log2 n + 2s + 10 steps except with probability 2^-s, an insertion or removal at most 2 log2 n + 2s + 103, and a call on a SkipList of n elements that looks for an index at most 2 log2 n + 2s + 69; a set operation on maps of together n keys takes at most 5n + 2s + 1 and a + whose left list has n elements at most 2 log2 n + 2s + 70, except with probability 2^-s.", "quantifier": "all lawful key orders, all histories of one map or list and all programs over several, all s, all sizes below 2^32", "why_tests_cant": "a tail of a distribution over random numbers, for unboundedly many histories of collections up to 2^32 elements", "anchors": ["src/skiplist/map.rs:119-125 (heights)", "src/skiplist/map.rs:141-540", "src/skiplist/map.rs:576-900 (set operations)", "src/skiplist/list.rs"]}
{"id": "C85", "title": "The raw nodes of the skip lists as bytes", "statement": "On the level of bytes the raw nodes of SkipMap and SkipList (repr(C) struct with trailing links in a buffer of Vec<u64>, length read back from the node to release it) behave as nodes with an entry and a list of links: a sequence of operations that touches no released node, no missing link and no unwritten entry has the same results, without undefined behaviour (access outside of allocated blocks, unaligned access, release with another size), the blocks in use are those of the nodes not released, and pointers to nodes in memory are distinct and not null.", "quantifier": "all layouts (word size, alignment of u64, size and alignment of the entry, words per link), all allocators that keep their contract, all initial contents of memory, all sequences of operations", "why_tests_cant": "tests run with one allocator on one platform, where misaligned or out-of-bounds accesses usually go unnoticed", "anchors": ["src/skiplist/map.rs:10-63", "src/skiplist/list.rs:7-68"]}
{"id": "C86", "title": "Memory of the skip lists", "statement": "After every history a SkipMap or SkipList with n elements takes memory linear in n: with independent random heights on average at most 2 links per element besides the 33 of the head, except with probability 2^-s at most 3n + 2s, never more than 33 per element; removed and overwritten elements take none.", "quantifier": "all lawful key orders, all histories, all layouts of the node, all s", "why_tests_cant": "a statement about the distribution of a sum over random numbers, for all histories", "anchors": ["src/skiplist/map.rs:36-62", "src/skiplist/map.rs:119-125", "src/skiplist/list.rs:40-66", "src/skiplist/list.rs:121-127"]}
{"id": "C87", "title": "Skip lists on bytes", "statement": "The code of SkipMap, run on bytes in memory with addresses as pointers, blocks from an allocator and the blocks of others beside its own, returns what an ordered map returns until an allocation fails; it has no undefined behaviour and every loop ends; it takes one block per key and one for the head, never changes a byte in the blocks of others, and after its drop exactly the blocks of others are in use.", "quantifier": "all lawful key orders, layouts with alignment at most that of u64, lawful allocators, faithful encodings of entries, contents of memory, blocks of others, histories and draws", "why_tests_cant": "tests run with one allocator and one layout; a stray write or a use after free that happens to hit memory not looked at goes unnoticed", "anchors": ["src/skiplist/map.rs:10-63", "src/skiplist/map.rs:95-551", "src/skiplist/map.rs:901-1087"]}
{"id": "C88", "title": "Distances in skip lists", "statement": "A SkipList stores no distance that is larger than its length plus one, so the arithmetic on distances cannot overflow as long as the length fits.", "quantifier": "all histories of calls on one SkipList and all draws", "why_tests_cant": "the distances are private, and an overflow shows only after 2^32 insertions", "anchors": ["src/skiplist/list.rs:143-236"]}
{"id": "C89", "title": "SkipList on bytes", "statement": "The code of SkipList, run on bytes in memory with addresses as pointers, two-word links, blocks from an allocator and the blocks of others beside its own, returns what a sequence returns until an allocation fails; it has no undefined behaviour, no sum of lengths or distances overflows and every loop ends; it takes one block per element and one for the head, never changes a byte in the blocks of others, and after its drop exactly the blocks of others are in use.", "quantifier": "all layouts with alignment at most that of u64, lawful allocators, faithful encodings of elements, contents of memory, blocks of others, histories and draws", "why_tests_cant": "tests run with one allocator and one layout, and no test makes as many insertions as a word can count", "anchors": ["src/skiplist/list.rs:7-68", "src/skiplist/list.rs:101-510", "src/skiplist/list.rs:516-639"]}
