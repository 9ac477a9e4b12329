# Formal model of extended-collections-rs: design

The model and the proofs are in `rocq/theories/` (logical name `Verif`, Coq 8.16.1).
`properties.jsonl` lists the properties, `MANIFEST.json` maps each one to theorems,
`seeded/LOG.jsonl` lists the wrong programs the theorems were tried against.

## Layout

| file | content |
|---|---|
| `Base.v` | result type (`Ok`, `Panic`, `Timeout`), `run`/`outputs` of a machine, `spec_run`, the key-order class `Cmp` and its laws |
| `*Spec.v` | specifications on plain lists, and the vocabulary of the theorems; no code of the library |
| `*Model.v`, `SkipHeap.v`, `LsmBase.v` | executable models; every definition cites `/repo` file and lines; no proofs |
| `*Proofs.v`, `*Lemmas.v`, `*Laws.v`, `*Claims.v`, `RadixShape.v`, `SizeTieredLoose.v`, `PermTac.v` | lemmas |
| `*Instances.v` | concrete key types, configurations and call sequences used in examples and refutations |
| `Properties*.v` | theorem statements closed by `exact`, each followed by `Print Assumptions`, plus examples that meet the hypotheses |

A theorem `X_partial` proves part of property X; what is missing is said beside it and in `MANIFEST.json`.
A theorem `X_refuted` shows by a computed run that the code violates X.

| library module | model | property file |
|---|---|---|
| `avl_tree`, `red_black_tree`, `splay_tree`, `treap` (`map`, `tree`, `node`, `set`) | `BstModel`, `AvlModel`, `RbModel`, `SplayModel`, `TreapModel`, `KeySetModel` | `PropertiesBst` |
| `splay_tree` running time | `SplayCostModel` | `PropertiesSplayCost` |
| `red_black_tree`, `avl_tree` running time | `TreeCostModel` | `PropertiesTreeCost` |
| `treap` running time | `TreapCostModel`, `TreapSeedModel` (the generators of a program) | `PropertiesTreapCost`, `PropertiesTreapProgCost`, `PropertiesTreapRare` |
| `skiplist/map`, `skiplist/list` running time | `SkipCostModel`, `SkipListCostModel`, `SkipProgCostModel`, `SkipListProgCostModel` | `PropertiesSkipCost`, `PropertiesSkipListCost`, `PropertiesSkipProgCost`, `PropertiesSkipListProgCost` |
| freeing the trees | `DropModel` (the calls that the compiler generates, with a limited stack) | `PropertiesDrop` |
| maps under a comparison that is no order | `AnyOrderModel` | `PropertiesAnyOrder` |
| tree maps when a comparison panics | `UnwindModel` | `PropertiesUnwind` |
| SkipMap when a comparison panics | `SkipUnwindModel` | `PropertiesSkipUnwind` |
| `treap/list`, `treap/implicit_tree` | `TreapListModel` | `PropertiesSeq` |
| `skiplist/map`, `skiplist/set` | `SkipHeap`, `SkipMapModel` (nodes in a memory) | `PropertiesSkip`, `PropertiesSkipInter` |
| `skiplist/list` | `SkipListModel` (nodes in a memory) | `PropertiesSkipList` |
| `arena` | `ArenaModel` | `PropertiesArena` |
| `radix` | `RadixModel`, `RadixCostModel` (steps) | `PropertiesRadix`, `PropertiesRadixCost` |
| `sync/stack` | `StackModel` (interleaving of atomic steps), `StackWeakModel` (memory with views: the orderings of the code) | `PropertiesStack`, `PropertiesStackWeak` |
| `bp_tree` | `BpNodeModel` (arrays), `BpMapModel` (programs over a pager), `BpByteModel` (file of bytes), `BpCrashModel` (states during a call), `BpCostModel` (accesses to the file), `BpIterIoModel` (iterators with failing reads), `BpIoModel` (operations on the file that fail), `BpIterModel` (the iterator call by call) | `PropertiesBp`, `PropertiesBpBytes`, `PropertiesBpCrash`, `PropertiesBpCost`, `PropertiesBpIter` |
| `lsm_tree/sstable` | `SsModel` (four files of bytes), `SsReadModel` (bytes read by a lookup), `LsmTableModel` (entries) | `PropertiesSs`, `PropertiesSsRead`, `PropertiesLsmIter` |
| `lsm_tree/map`, `lsm_tree/compaction` | `LsmMapModel`, `LeveledModel`, `SizeTieredModel`, `LsmMetaModel` (the directory as bytes), `LsmReadModel` (tables opened), `LsmThreadModel` (calls as programs), `LsmIoModel` (operations on files that fail), `LsmScanModel` (scans with failing reads) | `PropertiesLeveled`, `PropertiesLeveledShape`, `PropertiesLsmRead`, `PropertiesSizeTiered`, `PropertiesLsmBytes`, `PropertiesLsmThread`, `PropertiesLsmSpace`, `PropertiesLsmIo`, `PropertiesLsmScan` |

## Conventions

* Rust integers are `nat`/`N`/`Z` without wrap-around unless a model says otherwise (`LeveledModel` wraps, the
  counter of `StackModel` wraps, `SkipListModel` panics on underflow).
* A panic (`expect`, `assert!`, `panic!`, index out of bounds) is the value `Panic`.  In the models with a memory
  (`SkipHeap`, `StackModel`) undefined behaviour (use of freed memory, link out of range) is `Panic` too.  In the
  models with files an `Err` of the operating system or of bincode is `Panic`.
* A loop that is not structurally recursive takes fuel; running out is the value `Timeout`, which every theorem
  about the function excludes.
* Random numbers (treap priorities, tower heights) are inputs of the model, universally quantified.
* Keys (except in C69): any type with a comparison obeying `CmpLaws` (a total preorder whose `Eq` need not be Leibniz equality, so
  "insert replaces the stored key" is meaningful).
* Borrowed lookup types (`Borrow<V>`) are identified with the key type.
* A collection is a state machine: `step : state -> call -> res (state * result)`; a property of all histories is a
  property of `outputs step new calls` for all lists `calls`.

## How the properties are proved

* C01-C04, C45: the in-order list of the tree is the state of the specification; every operation returns the
  specified result and commutes with it; lifted to all call sequences.
* C05, C13, C49: nodes in a memory.  Invariant: the chain at level h is the sub-sequence of the nodes with more
  than h links; every live cell is on the chain.  Set operations are run on two memories.
* C51: potential function (sum of logarithms of subtree sizes) on a model that counts comparisons.
* C52: models that count nodes entered and comparisons; erasing the counts gives the models of C01 and C02.  Black
  height bounds the recursion of the red-black `remove`.
* C60: the nodes on a path to a place carry the records among the priorities left and right of it.  An average is a
  sum over all sequences of numbers; a number is the largest of j positions in at most 1/j + 1/M of them.  A key carries
  the largest of the numbers of its insertions, an element of a list the number of its insertion.
* C68: the draws behind the keys of different maps are disjoint.  A set operation enters a node for each key of its two arguments
  and splits at it, along records of both.
* C82: 2 to the number of records among n positions is n + 1 on average over distinct priorities (`RareLemmas.pow_recs` with ties); the
  Markov inequality bounds the tail, a union over the keys the depth and the set operations.
* C83: freeing nests as many calls as the tree is deep; the depths are those of C07, C08 and C82.
* C61, C62: on each level a walk passes the nodes since the last one that reaches the level above; the draws that end at the
  nodes before a place are a uniform sample (`HeightLemmas.v`), so a level costs two comparisons on average.
* C84: seen from the last node back, the nodes a search passes are those at least as high as all before; 3/2 to their number is at most
  2^(s+1) on average for a search from level s (`HeightRareLemmas.pw_bound`), 3/2 to a height at most 2; then Markov.
* C85: `NodeBytesModel` runs the operations of `SkipHeap.v` on bytes; the invariant says which bytes of which block hold the length, the entry
  and the links of every live cell (`NodeBytesProofs.inv`).
* C87: `SkipBytesModel` is the code of SkipMap once more, on bytes and addresses (`NodePtrModel`); `NodePtrProofs.rel` relates it to the heap
  of `SkipMapModel`, where an address stands for the cell allocated there, and every function is simulated.
* C88: `SkipDistProofs.sl_in` is the invariant of SkipListProofs with the excess of the distances past the end made explicit.
* C89: `ListBytesModel` is SkipList on bytes, as C87; the sums stored in words are checked, and C88 bounds what the heap of `SkipListModel` stores
  before and after each call, so the checks pass.
* C86: heights of the nodes in memory are those of distinct draws (C61, C62); their sum is bounded as in C84.
* C70: a set operation of skip maps takes each node once and writes one link for each level of it; heights are at most 1 on average.
* C72: `LsmReadModel` is the lookup with the names of the tables whose index file is opened; the answers of the Bloom filters are a
  function without false negatives (C04 proves that they have none).  The names of the tables and the value are those of one call.
* C73: `SsReadModel` is the lookup in one table with the frames read (file, bytes) and the comparisons of the search for the block.
* C74: every call carries the number of comparisons that return before one panics, and the model says what unwinding leaves in the tree;
  where none panics the model is that of C01-C04.  A panic in a call that is not caught, and panics of `Drop` or `Clone`, are not modelled.
* C75: the same for SkipMap on its memory.  A node that is half linked is alone in a chain of its own at the levels below; at every level the
  nodes fall into sorted chains, and each chain hangs below one chain of the next level (`SkipUnwindInv.v`), so a node that a call frees is
  linked nowhere else.
* C80: the same for split_off and the set operations of TreapMap.  A panicking insert leaves stored lengths that are too large; the set
  operations do the same on a tree with the right lengths (`TreapUnwindProofs.norm`), and stored lengths never grow.
* C79: the same for the set operations of SkipMap, which take both maps: what is left of them, and what is dropped, when the loop unwinds.
* C76: in every call of an LsmMap one operation on files may fail; the model says in which state a `?` that returns leaves the map.  A call
  that fails has done what the call without failures does up to there, so its state differs from one reached without failures only in the
  parts that `LsmIoLemmas.patch` names; the laws of C36-C41 then do the rest.
* C77: a read that fails takes the least entry and the rest of its run away from the merge, so the rest is again a merge of sorted runs.
* C78: a file operation of a BpMap that fails leaves what was done before it, and in memory what the pager changed before it.  The invariant of
  C25 is proved for three relations between file and memory (`BpStoreProofs.tightness`), of which the loosest forgets the metadata in the
  file and pages nothing points to; before the first write to an entry every program keeps it.  An operation that fails has no effect on
  the file (torn writes are not modelled).  Outside the histories of the theorem a run out of fuel has no meaning.
* C81: the iterator of BpMap with failing reads.  The positions at which it reads a page are the starts of the leaves behind the
  first one; between them it is the iterator of C67.
* C71: `+` walks to the end of the left list as a lookup does, and joins 33 levels.
* C06: iterators as stack machines over the trees, as in the source.
* C07, C08: shape invariants by induction over histories; violations of C07 by a computed
  run and by a family of histories that erode a perfect tree to a comb of depth h with h(h+1)/2 keys.
* C09-C12: heap order, stored lengths, uniqueness of treaps, set algebra over in-order lists.
* C14: the implicit treap refines `list`.  C15, C16, C50: memory model with distances.
* C17, C47: invariant: the free list is exactly the vacant slots.  With rejected frees: every slot is in use, waiting
  or lost (`ArenaExactSpec.shelf_step` is the exact behaviour).
* C18-C21: first-child/next-sibling tree abstracted to a sorted list of (byte string, value).
* C64: models that count nodes, children and bytes; each level but the root uses up a byte of the key, and the children of a
  node have different first bytes, so a level costs at most two passes over 256 children.
* C22, C23, C48: small-step interleaving; linearizability by an explicit linearization point per call;
  reclamation by its contract (a deferred destructor runs after all threads pinned at that time have unpinned).
* C57: each location has a history of messages, each thread and each message a view.  Ghosts: the stack behind every
  message of head, and the calls that took effect at it (an empty pop at the message it read).  A node that a thread
  with view v may still reach is in the stack of some message not older than v, so it is not destroyed.
* C24: drop counters on the code paths that read values out by `ptr::read`.
* C25-C29, C32: node operations on arrays, a map program over a pager, refinement to a sorted list with a tree
  invariant.  C30, C31: the same program over a file of bytes, related to the file of pages by a simulation.
  The hypothesis `never_harmful` on overwrites speaks about the leaves of the file at each call; `C25_bp_exact` shows that it
  cannot be weakened, and `C25_harmless` gives conditions on the calls alone.
* C53: the list of all states of the file during a call.  Between the writes of a split the leaves stay chained, so
  iteration needs only the left edge of the tree and that chain.
* C63: programs get by with a budget of accesses, whatever the file holds, that depends on the length of the search path only;
  nodes that are half full bound the length of the path.
* C33, C34: files as byte lists with 8-byte big-endian length prefixes; any Bloom filter without false negatives.
* C35: merging iterators over any runs; result characterised by newest version per key.
* C36-C44: one machine for `LsmMap` over an abstract strategy; the compaction thread's steps may stand anywhere in
  the call sequence.  `LsmMapProofs.v` proves the refinement for every strategy that satisfies the record `laws`;
  `LeveledLaws.v`, `SizeTieredProofs.v` and `SizeTieredLoose.v` prove the laws.  The disk is the sum of a log of
  effects, so a crash is a prefix of the log.
* C54, C55: the builder of `LsmTableModel` and that of `SsModel` are run side by side, with the sizes of the first being
  lengths of encodings; a second invariant over all calls says that every table came out of the first builder.
* C56: a property of the metadata that each of its four operations keeps holds for every run (`LsmGoodProofs.v`); tables
  that stay outside of the levels are newer than everything in them, which an insertion that is the newest entry rules out.
* C65, C66: every call is a sequence of a dozen kinds of small changes of the state (`LsmPrimProofs.v`); an invariant need be
  checked for these only.  A failing compaction leaves nothing behind in the model, so C65 is about runs without one.
* C58, C59: a call is a program of actions, each with at most one access to what it shares with the thread; the thread
  takes its turns in between.  Rely-guarantee: `rely` is what turns of the thread leave alone, `ok n p s` says that the
  program `p` goes well from `s` in `n` actions whatever the thread does meanwhile; the pieces of programs compose.
* C69: the comparison is an argument of every call, with no laws.  The in-order list (of the trees) or the chain at level 0 (of
  the skip list) is the state; a node of the skip list may be linked on fewer levels than its height, and no level reaches
  beyond the first node that the search has stopped at above.

## Trusted base

* The Coq 8.16.1 kernel (including `vm_compute`).
* `Print Assumptions` under every property theorem says "Closed under the global context": no axioms.
  `vcheck` lists `Coq.ssr.ssrunder.Under_rel.*` as axioms present in loaded libraries; these are fields of a module
  type of the standard library that `Lia`/`ZArith` load, no theorem here depends on them.
* The correspondence between the Rust text and the Gallina text is by reading; nothing is extracted or run.
* The standard library of Rust (`Vec`, `BTreeMap`, `BinaryHeap`, `Box`, `mem::swap` ...) behaves as documented;
  `bincode` encodes as described in `BincodeModel.v`; `crossbeam_epoch` keeps its contract; the Bloom filter of
  `probabilistic_collections` has no false negatives; `rand` returns some number.

### Modelled

All public operations of all collections of `/repo/src`, with these exceptions.

### Not modelled

* `Debug`/serde derives of in-memory types; `benches`, `tests`.
* Memory orderings beyond `StackWeakModel`: loads that read from writes which depend on them ("out of thin air").
  `StackModel` (C22, C23, C48) is sequentially consistent.
* Aliasing rules for the raw nodes of the skip lists (C85 has addresses, sizes and alignments); memory of the other collections (safe Rust).
  `SkipMapModel` and `SkipListModel` use the cells of `SkipHeap.v`; C85 is about those operations, not about each collection again.
* Errors of the operating system (disk full, permissions) outside of C76-C78, C81 and of the compaction thread (`BgFail`); fsync and caching: a completed write is on disk.
* What the compaction thread does before it stores its result is one step (it reads tables that stay (C58_tables) and
  writes tables of new names).  A thread that is still running when its map is dropped is forgotten; in the code it
  goes on writing tables that nobody refers to (n: and races with a `clear` of the reopened map).
* Averages and probabilities (C60-C62, C68, C70, C71, C82-C84, C86) are over independent, equally likely numbers.  The code seeds its generators with a constant, so each
  program always draws the same numbers; the averages say nothing about a caller who knows them, and the collections of a
  program draw the same numbers as each other (C68, C70, C71).  The generator itself is not modelled.

## Findings

Violations have a `_refuted` theorem unless marked (n), which are notes from reading.

| where | what |
|---|---|
| AVL | `remove` of a node with two children calls `remove_min`, which does not rebalance on the way up: balance factors beyond 1 (C07), depth not logarithmic in the number of keys (C07, C52) |
| SplayMap | `get`, `contains_key`, `floor`, `ceil` do not splay, so repeated access to a deep key stays linear (C51); keys inserted in order make a path, and freeing it nests one call per key, which overflows the stack for large maps (C83) |
| RedBlackMap | an `Ord` that is no order can make `remove` panic at `assert!(left.is_none())`; nothing is lost before (C69) |
| AVL, red-black, splay, treap | if a comparison panics and the panic is caught: `remove` of AvlMap and RedBlackMap has taken the root out of the tree, so all pairs are lost; SplayMap loses the pairs outside of the subtree that it had reached, in `insert`, `get_mut` and `remove`; TreapMap loses the subtree that `insert` was splitting; `len` counts lost pairs, and inserts that did not happen (C74); `split_off` of TreapMap loses all pairs of its map (C80, `C80_split_refuted`) |
| SkipMap | if a comparison panics in `insert` and the panic is caught: the new node is linked at some levels only and is never freed; `len` counts it; until it is unlinked by a later call, lookups that pass it miss the pairs behind it, and inserts that pass it are lost in the same way (C75, `C75_unchanged_refuted`, `C75_no_leak_refuted`). Panics in all other calls are harmless (`C75_no_insert`), and no panic leads to a use of freed memory |
| SkipMap | if a comparison panics in a set operation: `head` of both maps is a node with an entry then, so `Drop` frees that node without dropping its entry, and the nodes of the real heads are never freed: two pairs and two nodes leak (C79, `C79_no_leak_refuted`) |
| SplayMap | under an `Ord` that is no order, `remove` overwrites the right child of the splayed left subtree: pairs are dropped and `len` still counts them (C69) |
| SkipMap | safe under any `Ord` that is a function, but if the answers change while `remove` runs (keys with interior mutability or state) a node is freed while links above level 0 still lead to it: use after free from safe code (C69) |
| Treap | inserting an existing key draws again and keeps the larger of two priorities, so the average time is logarithmic in the number of insertions, not in that of keys (C60); `new` and `split_off` start every generator at the same constant, so collections made separately and joined repeat each other's priorities: n maps or lists of one element joined by `union` or `+` give a path of n nodes (C68) |
| TypedArena | a rejected `free` (caught panic) has already overwritten `head`: the free list is lost (for ever; memory grows without bound with one value in use); `chunk_size` 0 is accepted and makes one slot per chunk growth (C47); a handle of a freed and reused slot is accepted again |
| RadixMap | after the last key is removed every later `insert` panics (C18, C19); `get_longest_prefix` returns nothing when the best matches branch right after the common prefix; for a query that shares no byte with any key the answer also depends on whether `remove` has ever been called, even on an absent key (C20, exact answer proved) |
| TreiberStack | a popped value is dropped twice; no `Drop` (values still on the stack leak); `len` wraps below zero while calls are in progress (C23, C24); without other synchronisation a `try_pop` after a completed `push` of another thread may return `None` (C57; allowed by the orderings chosen, the documentation promises nothing) |
| SkipMap | the level at which a lookup starts is computed from `len as u32`: with a multiple of 2^32 keys a lookup walks along level 0 or 1 and takes n steps (C61); every generator starts at the same constant, also that of the result of a set operation, so n maps of one key joined by `union` have nodes of one height and a lookup takes n steps (C70); `difference`/`symmetric_difference` panic exactly when the left map reaches beyond the right one; `intersection` links one level too many: it panics exactly when some common key was drawn a number with no more binary digits than the common key before it (unless that one was drawn 0), so always with more than 32 common keys none of which was drawn 0; a result it does return panics at every insertion or removal from its first key on, unless that key was drawn 0 (C13); `into_iter` drops keys and values twice (C24) |
| SkipMap, SkipList | nodes live in buffers of `Vec<u64>`: an entry with a larger alignment (`u128`, `repr(align(16))`) makes every access unaligned, undefined behaviour from safe code (C85) |
| SkipMap, SkipList (n) | links are reached by `get_unchecked` on an array of length 0, which its contract forbids; builds of recent compilers with debug assertions abort there |
| SkipList | heights end at 32: beyond 2^32 elements the highest level is a list of its own and access is not logarithmic (C62); every generator starts at the same constant, so n lists of one element joined by `+` have nodes of one height and access takes n steps (C71); distances past the end grow with every `insert` and never shrink, so after 2^32 insertions (`usize` of 32 bits) the arithmetic overflows however short the list is (C88, C89); `+` onto a list something was removed from: wrong access by index, later use after free (C16); `into_iter` drops twice (C24) |
| BpMap | overwriting a key at index >= m/2+2 of a full leaf of degree m >= 5 loses entries (C26), which leaves holes at which the iterator stops (C25) and, asked again, goes on (C67); internal degree 0, 1, 2 and leaf degree 0 panic (C32); `InternalNode::insert` on the left side of a full node of degree >= 4 loses children (C28, unused by the map); the computed degrees let nodes overflow their page: `BpMap<u8, u8>::with_degrees(1,1,1,3)`, `BpMap<u32, String>`, `[u8; 4]` keys (C31) |
| BpMap, crash in a call (C53) | a split loses sight of the upper half of a leaf (only iteration still finds it), and inserting such a key again stores it twice; a reused page is written before it leaves the free list, so the next allocation panics; a merge leaves a free page in the tree; an entry moved between siblings is first removed, then inserted; a removal decreases `len` first, so removing again panics on underflow; `clear` cuts the file before the metadata is written |
| BpMap, operations on the file that fail (C78) | `remove` that moves an entry between leaves loses the entry of another key; `remove` that merges leaves makes lookups panic; `remove` writes the length before the leaf, so the entry stays uncounted and removing it again underflows; `insert` that splits leaves an entry that is iterated but not found; if the root could not be written, an entry is found until the file is opened again, and inserting its key then stores the key twice; `clear` leaves a map that says it is empty and finds entries; opening again after a failed metadata write gives a wrong length, or a free list with a page in use |
| BpMap, iterator with failing reads (C81) | a `for` loop over the map panics where `iter_mut` returns an error (`into_iter` unwraps); as long as a read fails the iterator yields errors and does not end |
| BpMap (n) | `iter_mut` yields copies |
| SSTable | the recorded size leaves out the last block of the index unless it is full, so merge decisions of both strategies use a size that is too small (C54) |
| LSM, size-tiered | a removed key comes back after a compaction that takes in all tables while the newest entry is a tombstone (C37); nothing else goes wrong (`C37_nothing_lost`) |
| LSM | a compaction that leaves nothing newer than a table keeps that table, so tables of removals pile up, every flush compacts them again (C56) and a lookup opens them all (C72), with both strategies |
| LSM, leveled | a level limit of 0, or one that wraps to 0, makes a compaction run forever (C44) |
| LSM | `min`/`max` ignore tombstones in memory (C38); a new map that was never written cannot be opened again (C40); old tables are removed before metadata.dat is written, so a crash in between makes `open` fail (C41) |
| LSM | metadata.dat is overwritten in place: if a crash cuts the write, the map cannot be opened, even if all tables are there (C55); table paths are stored as given, so a moved directory, or one opened from another working directory, cannot be opened (`C55_leveled_lost`) |
| LSM, leveled | directories of empty builders, and tables that one compaction writes and merges again, are never removed, without bound (C65) |
| LSM, size-tiered | a compaction that keeps nothing leaves its directory; so does one that is finished but not installed when the map is reopened (C65) |
| LSM | `clear` does not reset `in_memory_usage`, so the next flush comes too early (C66) |
| LSM, errors of files (C76) | a flush that returns `Err` loses what was written since the last one (the tree is given up before the table is on disk), or, failing earlier, sets `in_memory_usage` to 0 so that overwriting a key underflows; an error in a lookup that installs a compaction leaves metadata.dat with removed tables, and a later successful `flush` does not write it; an error when an iterator is made (`iter`, `len`, `min`, `max`) leaves the lock count raised: nothing is compacted until the map is reopened |
| LSM, reads that fail in a scan (C77) | an iterator that returned `Err` goes on without the rest of that run: it then yields removed and overwritten pairs; `len` counts errors as pairs and returns `Ok` with a wrong number; `max` returns `Ok` with a wrong key unless the error comes last |
| LSM (n) | `clear` invalidates live iterators; `in_memory_usage` underflows if equal keys have different serialized sizes; a panic in the compaction thread leaves `is_compacting` set for ever; in `get_compaction_range` a table out of the bucket is included when the range is already large enough, and is otherwise skipped as the start of the next bucket |
