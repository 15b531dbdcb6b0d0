# Formal model of TommyDS in Rocq (Coq 8.16.1)

The library (`/repo/tommyds/*.c, *.h`, about 1500 lines of C) is modelled
function by function as an *executable* Gallina program over an explicit
memory.  The properties in `properties.jsonl` are theorems about that program.

## 1. How C is represented

* **Platform**: 64-bit (`TOMMY_SIZE_BIT == 64`, `sizeof(void*) == 8`).
  Machine words are `Z` in `[0, 2^64)`; every C operation that can wrap is
  written with an explicit `mod 2^64` (or `2^32`).
* **Memory** (`Mem.v`): a finite map from byte addresses to cells.  A cell is
  an initialised word, an uninitialised word, or an initialised byte.  A
  `tommy_node` is four words at offsets 0/8/16/24.
* **Outcome of a computation**: `Ok v m'`, `UB` (undefined behaviour: access
  to an unallocated address, read of an uninitialised word, free of something
  that is not a live heap block, failed `assert`, out-of-range shift or array
  index), `Fuel` (a loop ran out of its explicit fuel) or `Env n` (the
  environment broke its own contract: malloc, asked for `n` bytes, failed or
  handed out memory that is already in use).  Theorems show that the outcome is never `UB` and, with the stated
  fuel, never `Fuel`; `Env` is the only escape.  C69 bounds the sizes that
  can lead to it and C70 the number of requests, so a program cannot escape by
  asking for absurd amounts: with enough memory every history completes.
* **malloc/calloc/free**: addresses come from an oracle (an arbitrary stream
  of addresses) over which all theorems quantify.  If the oracle proposes a
  null, unaligned (16), overlapping or overflowing region the outcome is
  `Env`.  `free` of anything but the exact base of a live region is `UB`.
  The set of live regions is part of the state, so "every block is freed
  exactly once" is a statement about the final state.
* **Callbacks** (compare, search, foreach) are computations in the same monad
  supplied by the client.  A foreach callback may free the node it is given.
  A comparison or search function may read any memory `K` of the client that
  is not part of the nodes or of the library's own memory (`reads`,
  `separate` in `Client.v`): the keys are loaded from memory when it is called.
* **Container structs** whose fields are only reached through the argument of
  the API function (`tommy_hashlin`, `tommy_array`, `tommy_tree`, `tommy_trie`,
  ...) are Gallina records passed in and returned; everything that the code
  accesses through other pointers (nodes, bucket cells, list heads, the bucket
  arrays of the tries, trie blocks, free lists, segments) lives in memory.  The
  arrays `bucket` inside `tommy_trie` and `tommy_trie_inplace` are in memory at
  an arbitrary address, which the record holds.
* **Clients** (`Client.v`): a client is an adaptive program, a tree
  `Do op (fun answer => ...)` whose next operation may depend on all earlier
  answers.  `allowed pre post` says that it respects the preconditions of the
  operations as long as the answers are those of the specification.  The
  history theorems run such a client against the model.  The client's objects
  (which embed the nodes) are at arbitrary disjoint addresses with arbitrary
  contents around the node, and the theorems say that nothing but the nodes,
  the container's memory and the heap changes.
* **Loops / recursion** use explicit fuel.

## 2. Proof method

Heap reasoning is done with the Iris proof mode over a weakest precondition
defined for the executable monad (`Wp.v`; ownership of cells is the `gmap_view`
camera in the plain base logic `uPred`; no invariants, no later, no step
indexing).  `adequacy` (`Wp.v`) and `client_adequacy` (`ClientProof.v`) turn a
proof in that logic into a plain statement about running the model; all
property theorems are such plain statements: Iris does not occur in them.

Each container `X` has

1. `X.v`: the executable model, each definition with the lines it models;
2. `XSpec.v` (`TableSpec.v`, `ArraySpec.v` for the three hashtables and the four
   arrays): the operations, the client's code for each, preconditions,
   postconditions on a small abstract state (a list of elements), and the
   functions that compute the expected elements from the operations alone;
3. `XProof.v`, `XHist.v`, `XProps.v` and others: representation predicate,
   specification of each function, history theorem, consequences;
4. `ExamplesX.v`: concrete memories and clients that meet the premises, and
   runs of the model on them; counterexamples;
5. `Prop_X.v`: only the property theorems, each closed by `exact` and followed
   by `Print Assumptions`, and examples.

Two kinds of conclusion: `safe r Q` says that the outcome is `Ok` with `Q`, or
`Env`; `succeeds r Q` excludes `Env` and is used where the code does not
allocate.

## 3. Properties

| id | model | proof and result |
|----|-------|-------|
| C01, C02, C07 | `List.v` | doubly linked segment predicate; refinement to `list`; proved for adaptive clients of several lists |
| C03-C06, C60 | `Chain.v` (merge sort with the bit-bucket array) | refinement to a pure bucket merge sort (`ChainProof.v`); order, stability, permutation and number of comparisons by induction on merges (`SortProof.v`, `SortFast.v`). The comparison reads the keys from the client's memory; for C05 and C06 it may also depend on all earlier calls |
| C08-C10, C18-C20, C54 (hashtable) | `HashTbl.v`, `Bucket.v` | bucket array of lists, refinement to an insertion-ordered list of elements |
| C11-C13, C18-C20, C54, C58 (hashdyn) | `HashDyn.v` | the same with resize; amortised work by a potential (`HashDynAmort.v`) |
| C57 | the three tables | the specification `tpost` determines the answers of all operations but bucket and foreach (`TableSwap.v`) |
| C14-C17, C18-C20, C50, C51, C54 (hashlin) | `HashLin.v` | invariant on (low_max, split, state, count); **C17 is false** (an insertion that reverses a shrink splits all remaining buckets): refuted by a family of histories with unbounded work, the amortised bound C51 is proved. **One clause of C16 is false** (load after an insertion while shrinking), refuted; the bounds that hold are C50 |
| C21-C26, C52, C53, C63 | `Array.v` | segments; log2 arithmetic; **C53 is false** for sizes above 2^64 - 4096 (the rounding wraps) |
| C27, C28, C64 | `Alloc.v` | **C27 is false** for some configurations (the header is not subtracted): refuted, exact condition given, proved for every configuration that fits |
| C29-C31, C59 | `Trie.v` on top of `Alloc.v` | tagged pointers, path array; invariant "every inner block has two different keys below it" (`TrieCount.v`), so the number of blocks is a function of the keys |
| C32, C33, C59 | `InpTrie.v` | tree of lists; removal that moves a leaf |
| C61 | both tries and the three hashtables | each container simulates a list in insertion order (`KeyedSwap.v`) |
| C34-C37, C39 | `Tree.v` | refinement to pure trees and pure rebalancing (`TreeBal.v`); for C37 the functions are copied with a counter of the calls of tommy_tree_balance (`TreeWork.v`), and erasing the counter gives back `Tree.v` |
| C67 | as above | the same invariant without the order (`TreeAnySpec.v`, `TreeAny.v`) |
| C38 | as above | **false**: a new leaf is stored with index 0; refuted by a reachable tree, the difference is at most 2 |
| C40, C41, C62 | `Hash.v` | each step injective mod 2^n (`HashMix.v` for C62) |
| C42, C43 | `Hash.v` over a byte reader that is UB outside the key | against an independent block-wise definition of lookup3 in `HashSpec.v` |
| C44, C45 | `Hash.v` | **C45 is false** (reads whole 32-bit words); the bound that holds is proved, and proved exact |
| C46-C49 | `Bits.v`, `BitsMsvc.v` | bit-level lemmas and finite table checks |
| C55, C56 | all of the above, `World.v` (specification) | each history theorem is restated for a container that owns only the nodes in it (`WorldList.v`, `WorldTable.v`, `WorldTree.v`, `WorldTrie.v`, `WorldArray.v`, `WorldPool.v`); parts with disjoint memory are put together by induction (`WorldProof.v`, `WorldHist.v`) |
| C65 | all of the above | closure of "only loads" under the monad, induction on the loops (`ReadOnly.v`) |
| C68 | `Array.v`, `HashLin.v` | **false** for the pointers kept (`&segment[-max]`), refuted by runs (`Pointers.v`); proved for the pointers handed out |
| C69 | all that allocate | bounds on each request to malloc, from the size that a run stops at when malloc refuses (`RequestSpec.v`, `Requests.v`) |
| C70 | all that allocate | counts the blocks that each operation may ask for, under a malloc that bumps a pointer (`RoomSpec.v`, `Room.v`, `RoomTrie.v`) |
| C71, C72 | all containers | a log of the accesses of a run (`AccessSpec.v`); a function run alone and run beside other memory makes the same accesses, by one lemma per function (`Accesses.v`, `AccessTable.v`, `AccessTrie.v`, `AccessTree.v`, `AccessHist.v`); the histories are known to be free of UB without the other memory |
| C73 | all containers | adds up the accesses of the log of C71 over the text of each function (`CostSpec.v`, `Cost.v`) |
| C74 | `Chain.v`, the visits | every call of the comparison or of the callback pays for the accesses since the one before (`CostSort.v`); the calls are counted by C06 |
| C75 | `Tree.v`, `TreeWork.v` | each call of tommy_tree_balance pays for 19 accesses, 4 of which are made by its caller (`CostTree.v`); the calls are counted by C37 |
| C76 | `HashDyn.v`, `HashDynWork.v` | each element linked again by a growth pays for 9 accesses, each bucket for 3 (growing) or 9 (shrinking) (`CostTable.v`); the elements linked again are counted by a second version of the growth, and an insertion that checks the count is shown never to fail; the sum is that of C58 |
| C77 | `HashTbl.v`, `HashLin.v`, `HashLinRelink.v` | the walk of a bucket as for C76; each bucket split pays for 3 accesses, each element linked again for 9, each pair of buckets joined for 7 (`CostTables.v`); that no more elements are linked again than there are is shown as for C76, with a second version of the growth that counts them |
| C78 | `HashLin.v`, `HashLinRelink.v` | a potential of the struct and of the elements (`hl_pot`: the elements in the buckets still to be split, and what is saved for the next growth) that rises by at most 4 at an insertion, less the elements linked again, and never at a removal; a copy of the table with two counters (`counted_table`) that asserts that at most four elements per insertion were linked again never fails, and runs like the table; the buckets searched are added up by `walks_all` (`CostLinSpec.v`, `CostLinAmort.v`) |
| C79 | `Array.v` | counting the accesses of every function of `Array.v` in any memory, with the number of blocks carried along a sequence of insertions (`CostArray.v`) |
| C66 | `HashTbl.v`, `HashDyn.v`, `HashLin.v` | the bucket invariant read off the final memory, for any history (`TableChain.v`) |

MANIFEST.json lists the theorems of each property.

## 4. Trusted base

* Coq's kernel (8.16.1).  `vm_compute` is used (kernel virtual machine), no
  `native_compute`.
* `Print Assumptions` under each property theorem prints `Closed under the
  global context` for every theorem of every `Prop_*.v`: no axiom is used, not
  even of the standard library.  Loading the libraries brings the axioms of
  `Coq.ssr.ssrunder` (`Under_rel` and the parameters of the same module type,
  part of the standard library's ssreflect) into the environment; no theorem
  depends on them.
* std++ 1.8 and Iris 4.0 (`iris.algebra.gmap_view`, `iris.base_logic`,
  `iris.proofmode`) as libraries; they are compiled code checked by the same
  kernel and add no axioms.
* The reading of the C code into Gallina: each definition cites its source.
* The specifications: `*Spec.v`, `Client.v`, `Mem.v`, and the premises of the
  theorems.

## 5. What is modelled, simplifications

All functions of `tommyds/*.c` and `tommyds/*.h` are modelled (list, chain and
sort, the three hashtables, the four arrays, allocator, tree, both tries, hash
and bit functions), for the configuration gcc/clang, 64 bits, asserts on.

* Pointers are integers.  C's rule that forming a pointer outside its object is
  undefined is not modelled as UB (`&segment[-max]` in the arrays and hashlin
  breaks it, which C68 shows), nor
  is strict aliasing.  A computed address that is not allocated is UB when it is
  accessed.  An access that is not aligned is not UB in the model; C71 shows
  that the containers make none.  The hash functions read their key bytes one
  by one in the model; on x86 `tommy_le_uint32_read` reads four at once from
  any address, by intention, which C71 is not about.
* The compiler intrinsics (`__builtin_clz`, `__builtin_ctz`, `_BitScanReverse`,
  `_BitScanForward`) are defined after their manuals.
* A failing `assert` is UB.  `tommy_ptrdiff_t` arithmetic that overflows is UB.
* Sizes: allocations of 2^64 bytes or more are impossible, so histories whose
  sizes would wrap are excluded by the preconditions named in the specs
  (`ay_max` for the arrays, the table size of C10); C53 shows what the wrap
  does.
* malloc never returns 0: the library does not check, so a failing malloc is
  the outcome `Env n`, about which the theorems say nothing but how large
  `n` may be (C69) and that it does not happen when there is room (C70).
* Allocator: alignments below 8 or multiples of 8; `reset` walks a list whose
  length is at most the size of the memory, which is its fuel.
* The allocator of a trie is passed along with it instead of through the
  pointer `trie->alloc`.
* Comparison and search functions do not write to memory, and the memory that
  they read does not change during the history (`reads K f g a b`: called with
  a and b, f returns g a b in every memory that contains `K`).  They need to
  be defined only for the data they are called with: the elements of the list,
  the elements of the table with the hash searched for, the set `D` of data
  of the tree.  A key inside an object is covered when the object map lists
  only the node as the object; then it is not freed by the foreach callback.
  In C55 the memory that they read is what the client knows when the operation
  is called; it may change between operations, as long as the comparison of a
  tree still computes the same function.
* In C55 a node belongs to the client until it is handed to a container and
  after it is given back; its contents are then unknown.  A block given out
  by an allocator is memory of the client in the same way, from its
  allocation until it is freed or the allocator is done: it can hold nodes of
  containers and words of the client.
* foreach callbacks in histories record their arguments, and optionally free
  the object; `C07_list_foreach_any`, `C19_*_foreach_any` and
  `C35_foreach_any` are for arbitrary callbacks that leave alone what has not
  been visited yet.
* Client nodes are initially arbitrary (uninitialised) words.

## 6. Not modelled

Running time in seconds, caches, threads (the library has no concurrency),
32-bit builds, `benchmark.cc`, `tommy.c`/`tommy.h` (which
only include the other files), the Doxygen documentation, and `check.c` except
for its 231 test vectors of the hash functions, on which `HashVectors.v` runs
the model.

## 7. Tests against wrong programs

`seeded/LOG.jsonl` records edits of the model that mimic bugs and the theorems
that then fail.
