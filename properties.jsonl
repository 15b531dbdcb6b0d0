{"id": "C01", "title": "List operations behave like operations on a sequence", "statement": "After any history of tommy_list_insert_head/insert_tail/remove_existing on an initialised list, following next from tommy_list_head visits exactly the nodes of the abstract sequence in order, tommy_list_tail is its last node, tommy_list_count its length and tommy_list_empty tells whether it is empty; every operation is free of undefined behaviour and remove_existing returns the data stored at insertion.", "quantifier": "every finite history of operations, every set of node addresses and data pointers", "why_tests_cant": "pointer surgery has cases (only element, head, tail, middle) that interact over unbounded histories; a test visits a few shapes", "anchors": ["tommyds/tommylist.h:tommy_list_insert_head", "tommyds/tommylist.h:tommy_list_insert_tail", "tommyds/tommylist.h:tommy_list_remove_existing", "tommyds/tommylist.h:tommy_list_tail", "tommyds/tommylist.h:tommy_list_count", "tommyds/tommylist.h:tommy_list_empty"]}
{"id": "C02", "title": "List concatenation", "statement": "tommy_list_concat(first, second) makes first hold the elements of first followed by those of second, in order, for empty and non-empty operands, and leaves a well-formed list (every later operation still behaves as on that sequence).", "quantifier": "every pair of disjoint lists", "why_tests_cant": "unbounded sizes and four emptiness combinations; a corrupted prev link only shows up in later operations", "anchors": ["tommyds/tommylist.h:tommy_list_concat"]}
{"id": "C03", "title": "List sort is a sorted permutation", "statement": "tommy_list_sort leaves a well-formed list that holds the same nodes with the same data, ordered non-decreasingly by the comparison function, whenever that function is a total preorder.", "quantifier": "every list, every comparison function that is a total preorder", "why_tests_cant": "all permutations of all lengths and all orders", "anchors": ["tommyds/tommylist.c:tommy_list_sort", "tommyds/tommychain.h:tommy_chain_mergesort", "tommyds/tommychain.h:tommy_chain_merge", "tommyds/tommychain.h:tommy_chain_merge_degenerated"]}
{"id": "C04", "title": "List sort is stable", "statement": "Elements that compare equal keep their relative order under tommy_list_sort.", "quantifier": "every list, every total preorder", "why_tests_cant": "needs every placement of equal elements in every merge bucket", "anchors": ["tommyds/tommylist.c:tommy_list_sort", "tommyds/tommychain.h:tommy_chain_merge_degenerated"]}
{"id": "C05", "title": "List sort is safe with an inconsistent comparator", "statement": "Even when the comparison function is not an order (any deterministic int-valued function), tommy_list_sort terminates without undefined behaviour and leaves a well-formed list holding exactly the same nodes.", "quantifier": "every list, every comparison function whatsoever", "why_tests_cant": "quantifies over all functions", "anchors": ["tommyds/tommylist.c:tommy_list_sort", "tommyds/tommychain.h:tommy_chain_mergesort"]}
{"id": "C06", "title": "List sort uses O(N log N) comparisons", "statement": "tommy_list_sort on N elements calls the comparison function at most N*ceil(log2 N) + N times.", "quantifier": "every list, every comparison function", "why_tests_cant": "a worst-case bound over all inputs", "anchors": ["tommyds/tommychain.h:tommy_chain_mergesort", "tommyds/tommylist.h:tommy_list_sort"]}
{"id": "C07", "title": "List foreach visits each element once, in order, and tolerates deallocation", "statement": "tommy_list_foreach/foreach_arg call the function exactly once per element in list order, and stay free of undefined behaviour when the function deallocates the object it is given.", "quantifier": "every list, every callback that may consume the node it visits", "why_tests_cant": "use-after-free on every shape and size", "anchors": ["tommyds/tommylist.h:tommy_list_foreach", "tommyds/tommylist.h:tommy_list_foreach_arg"]}
{"id": "C08", "title": "Fixed hashtable search returns the first inserted match", "statement": "In any history of tommy_hashtable insert/remove/remove_existing, tommy_hashtable_search returns the data of the earliest-inserted element still present whose hash equals the argument and for which the comparison returns 0, or 0 if there is none.", "quantifier": "every history, every hash value, every comparison function", "why_tests_cant": "unbounded histories and adversarial hash collisions", "anchors": ["tommyds/tommyhashtbl.c:tommy_hashtable_insert", "tommyds/tommyhashtbl.c:tommy_hashtable_remove", "tommyds/tommyhashtbl.h:tommy_hashtable_search"]}
{"id": "C09", "title": "Fixed hashtable removal removes exactly one element", "statement": "tommy_hashtable_remove removes and returns the earliest-inserted match and nothing else, or returns 0 and changes nothing; tommy_hashtable_remove_existing removes exactly the given node; tommy_hashtable_count always equals insertions minus successful removals.", "quantifier": "every history", "why_tests_cant": "loss or duplication may appear only after particular collision histories", "anchors": ["tommyds/tommyhashtbl.c:tommy_hashtable_remove", "tommyds/tommyhashtbl.c:tommy_hashtable_remove_existing", "tommyds/tommyhashtbl.h:tommy_hashtable_count"]}
{"id": "C10", "title": "Fixed hashtable sizing", "statement": "tommy_hashtable_init(n) allocates a number of buckets equal to the smallest power of two not below max(n,16), for every n for which the table size is representable.", "quantifier": "every bucket_max", "why_tests_cant": "2^64 inputs", "anchors": ["tommyds/tommyhashtbl.c:tommy_hashtable_init", "tommyds/tommytypes.h:tommy_roundup_pow2_u64"]}
{"id": "C11", "title": "Dynamic hashtable is transparent to resizing: search", "statement": "In any history of tommy_hashdyn insert/remove/remove_existing, including every grow and shrink they trigger, tommy_hashdyn_search returns the earliest-inserted present element with the given hash accepted by the comparison, or 0 if none.", "quantifier": "every history, every hash distribution", "why_tests_cant": "resizes interleave with collisions in unboundedly many ways", "anchors": ["tommyds/tommyhashdyn.c:tommy_hashdyn_insert", "tommyds/tommyhashdyn.c:tommy_hashdyn_resize", "tommyds/tommyhashdyn.h:tommy_hashdyn_search"]}
{"id": "C12", "title": "Dynamic hashtable removal and count", "statement": "tommy_hashdyn_remove returns and removes exactly the earliest-inserted match or returns 0 and changes nothing; remove_existing removes exactly the given node; count is exact; no element is lost or duplicated by a resize.", "quantifier": "every history", "why_tests_cant": "same", "anchors": ["tommyds/tommyhashdyn.c:tommy_hashdyn_remove", "tommyds/tommyhashdyn.c:tommy_hashdyn_remove_existing", "tommyds/tommyhashdyn.c:tommy_hashdyn_resize"]}
{"id": "C13", "title": "Dynamic hashtable load factor", "statement": "After every operation the number of buckets is a power of two, at least 16, and strictly greater than twice the number of elements; and after every removal of an element the table has 16 buckets or more than one element per eight buckets.", "quantifier": "every history", "why_tests_cant": "a quantitative invariant over all histories", "anchors": ["tommyds/tommyhashdyn.c:hashdyn_grow_step", "tommyds/tommyhashdyn.c:hashdyn_shrink_step"]}
{"id": "C14", "title": "Linear hashtable is transparent to progressive resizing: search", "statement": "In any history of tommy_hashlin insert/remove/remove_existing, in every intermediate split state (stable, growing, shrinking, direction reversed), tommy_hashlin_search returns the earliest-inserted present element with the given hash accepted by the comparison, or 0 if none.", "quantifier": "every history, every hash distribution, every split position", "why_tests_cant": "the split position, direction and collisions form an unbounded state space", "anchors": ["tommyds/tommyhashlin.c:hashlin_grow_step", "tommyds/tommyhashlin.c:hashlin_shrink_step", "tommyds/tommyhashlin.h:tommy_hashlin_bucket_ref", "tommyds/tommyhashlin.h:tommy_hashlin_search"]}
{"id": "C15", "title": "Linear hashtable removal and count", "statement": "tommy_hashlin_remove returns and removes exactly the earliest-inserted match or returns 0 and changes nothing; remove_existing removes exactly the given node; count is exact; splitting and merging buckets never loses or duplicates an element.", "quantifier": "every history", "why_tests_cant": "same", "anchors": ["tommyds/tommyhashlin.c:tommy_hashlin_remove", "tommyds/tommyhashlin.c:tommy_hashlin_remove_existing"]}
{"id": "C16", "title": "Linear hashtable never reads uninitialised or unallocated buckets and its load stays bounded", "statement": "In every reachable state the linear hashtable only touches bucket cells that are allocated and initialised; the number of valid buckets is at least 64 and at least twice the number of elements after an insertion, and the bucket vector is never more than 64 while less than 1/16 full after a removal.", "quantifier": "every history", "why_tests_cant": "uninitialised reads depend on the exact split position", "anchors": ["tommyds/tommyhashlin.c:hashlin_grow_step", "tommyds/tommyhashlin.c:hashlin_shrink_step", "tommyds/tommyhashlin.h:tommy_hashlin_pos"]}
{"id": "C17", "title": "Linear hashtable does a constant amount of resize work per operation", "statement": "The header states that the progressive resize makes insert and delete take always the same time: the number of buckets split or merged by one insert or one remove is bounded by a constant independent of the history.", "quantifier": "every history", "why_tests_cant": "worst case over all histories", "anchors": ["tommyds/tommyhashlin.h:file comment", "tommyds/tommyhashlin.c:hashlin_grow_step", "tommyds/tommyhashlin.c:hashlin_shrink_step"]}
{"id": "C18", "title": "A hash bucket contains all elements with the given hash", "statement": "Following next from tommy_hashtable_bucket / tommy_hashdyn_bucket / tommy_hashlin_bucket(hash) visits every present element with that hash, in insertion order.", "quantifier": "every history, every hash", "why_tests_cant": "unbounded histories", "anchors": ["tommyds/tommyhashtbl.h:tommy_hashtable_bucket", "tommyds/tommyhashdyn.h:tommy_hashdyn_bucket", "tommyds/tommyhashlin.h:tommy_hashlin_bucket"]}
{"id": "C19", "title": "Hashtable foreach visits every element exactly once and tolerates deallocation", "statement": "tommy_hashtable_foreach, tommy_hashdyn_foreach and tommy_hashlin_foreach (and the _arg versions) call the function exactly once for each present element, in every resize state, and stay free of undefined behaviour when the function deallocates the object.", "quantifier": "every reachable table, every callback", "why_tests_cant": "depends on every split position", "anchors": ["tommyds/tommyhashtbl.c:tommy_hashtable_foreach", "tommyds/tommyhashdyn.c:tommy_hashdyn_foreach", "tommyds/tommyhashlin.c:tommy_hashlin_foreach"]}
{"id": "C20", "title": "Hashtables release exactly what they allocated", "statement": "In every reachable state, tommy_hashtable_done / tommy_hashdyn_done / tommy_hashlin_done free every heap block obtained by the container exactly once and free nothing else; no operation frees a block still in use.", "quantifier": "every history and every address choice of malloc", "why_tests_cant": "leaks and double frees depend on the grow/shrink history", "anchors": ["tommyds/tommyhashtbl.c:tommy_hashtable_done", "tommyds/tommyhashdyn.c:tommy_hashdyn_done", "tommyds/tommyhashlin.c:tommy_hashlin_done"]}
{"id": "C21", "title": "Array of pointers behaves like a growable zero-initialised vector", "statement": "After any history of tommy_array_grow/set/insert, tommy_array_size is the largest size requested so far, tommy_array_get(i) returns the last value set at i or 0 if never set, for every i < size, and no access touches unallocated memory.", "quantifier": "every history, every position", "why_tests_cant": "segment arithmetic at every power-of-two boundary", "anchors": ["tommyds/tommyarray.c:tommy_array_grow", "tommyds/tommyarray.h:tommy_array_ref"]}
{"id": "C22", "title": "Array element addresses never change", "statement": "For tommy_array, tommy_arrayof, tommy_arrayblk and tommy_arrayblkof the reference returned for a position is the same before and after any later growth, distinct positions have disjoint elements and every element lies inside memory allocated by the array.", "quantifier": "every history, every position, every element size", "why_tests_cant": "all growth histories", "anchors": ["tommyds/tommyarray.h:tommy_array_ref", "tommyds/tommyarrayof.h:tommy_arrayof_ref", "tommyds/tommyarrayblk.h:tommy_arrayblk_ref", "tommyds/tommyarrayblkof.h:tommy_arrayblkof_ref"]}
{"id": "C23", "title": "Array of fixed-size elements: new elements are zero and references are in bounds", "statement": "tommy_arrayof: for every position below the size, the element_size bytes at tommy_arrayof_ref are allocated, are zero until written, and belong to no other position.", "quantifier": "every element size, every growth history", "why_tests_cant": "byte-level arithmetic over all sizes", "anchors": ["tommyds/tommyarrayof.c:tommy_arrayof_grow", "tommyds/tommyarrayof.h:tommy_arrayof_ref"]}
{"id": "C24", "title": "Blocked array of pointers behaves like a growable zero-initialised vector", "statement": "Same as the array of pointers, for tommy_arrayblk, with memory use within one block of the requested size.", "quantifier": "every history, every position", "why_tests_cant": "block boundary arithmetic", "anchors": ["tommyds/tommyarrayblk.c:tommy_arrayblk_grow", "tommyds/tommyarrayblk.h:tommy_arrayblk_ref"]}
{"id": "C25", "title": "Blocked array of fixed-size elements", "statement": "tommy_arrayblkof: for every position below the size, the element_size bytes at tommy_arrayblkof_ref are allocated, zero until written, and belong to no other position.", "quantifier": "every element size, every growth history", "why_tests_cant": "byte-level arithmetic over all sizes", "anchors": ["tommyds/tommyarrayblkof.c:tommy_arrayblkof_grow", "tommyds/tommyarrayblkof.h:tommy_arrayblkof_ref"]}
{"id": "C26", "title": "Arrays release exactly what they allocated", "statement": "tommy_array_done, tommy_arrayof_done, tommy_arrayblk_done, tommy_arrayblkof_done free every block allocated by the array exactly once and nothing else.", "quantifier": "every growth history", "why_tests_cant": "pointer offset arithmetic on free() at every segment", "anchors": ["tommyds/tommyarray.c:tommy_array_done", "tommyds/tommyarrayof.c:tommy_arrayof_done", "tommyds/tommyarrayblk.c:tommy_arrayblk_done", "tommyds/tommyarrayblkof.c:tommy_arrayblkof_done"]}
{"id": "C27", "title": "Allocator hands out aligned, in-bounds, disjoint blocks", "statement": "Every block returned by tommy_allocator_alloc is aligned to the requested alignment, lies inside memory obtained from malloc, and is disjoint from every other block currently allocated; this holds for every block_size and align_size accepted by tommy_allocator_init.", "quantifier": "every history of alloc/free, every configuration, every malloc address", "why_tests_cant": "depends on sizes, alignment and malloc addresses", "anchors": ["tommyds/tommyalloc.c:tommy_allocator_alloc", "tommyds/tommyalloc.c:tommy_allocator_init"]}
{"id": "C28", "title": "Allocator bookkeeping", "statement": "tommy_allocator_memory_usage equals the number of live blocks times the rounded block size after any history of alloc/free, freed blocks are reused, and tommy_allocator_done releases every segment exactly once.", "quantifier": "every history", "why_tests_cant": "unbounded histories", "anchors": ["tommyds/tommyalloc.c:tommy_allocator_free", "tommyds/tommyalloc.c:tommy_allocator_done", "tommyds/tommyalloc.c:tommy_allocator_memory_usage"]}
{"id": "C29", "title": "Trie search and bucket contain all and only the elements with the key", "statement": "In any history of tommy_trie insert/remove/remove_existing with keys below 2^32, tommy_trie_bucket(key) is the list, in insertion order, of exactly the present elements with that key, and tommy_trie_search returns the first inserted of them or 0.", "quantifier": "every history, every key", "why_tests_cant": "expansion and reduction of inner levels depend on all shared prefixes", "anchors": ["tommyds/tommytrie.c:trie_bucket_insert", "tommyds/tommytrie.c:trie_bucket_remove_existing", "tommyds/tommytrie.c:tommy_trie_bucket"]}
{"id": "C30", "title": "Trie removal and count", "statement": "tommy_trie_remove removes and returns the first inserted element with the key or returns 0 and changes nothing; remove_existing removes exactly the given node; count is exact.", "quantifier": "every history", "why_tests_cant": "same", "anchors": ["tommyds/tommytrie.c:tommy_trie_remove", "tommyds/tommytrie.c:tommy_trie_remove_existing"]}
{"id": "C31", "title": "Trie inner-node accounting", "statement": "The number of inner blocks the trie holds equals the number it obtained from the allocator and has not given back; when all elements have been removed it holds none; the internal assertions and the fixed-size path array of the removal never fail or overflow.", "quantifier": "every history", "why_tests_cant": "depth depends on all shared prefixes", "anchors": ["tommyds/tommytrie.c:trie_bucket_remove_existing", "tommyds/tommytrie.c:tommy_trie_memory_usage"]}
{"id": "C32", "title": "Inplace trie search and bucket contain all and only the elements with the key", "statement": "Same as the trie, for tommy_trie_inplace, including after removals that move a leaf into the place of an inner node.", "quantifier": "every history, every key", "why_tests_cant": "the leaf chosen to replace a removed inner node depends on the whole subtree", "anchors": ["tommyds/tommytrieinp.c:trie_inplace_bucket_insert", "tommyds/tommytrieinp.c:trie_inplace_bucket_remove", "tommyds/tommytrieinp.c:tommy_trie_inplace_bucket"]}
{"id": "C33", "title": "Inplace trie removal and count", "statement": "tommy_trie_inplace_remove removes and returns the first inserted element with the key or returns 0 and changes nothing; remove_existing removes exactly the given node; count is exact; no shift by a negative or too large amount is ever executed.", "quantifier": "every history", "why_tests_cant": "same", "anchors": ["tommyds/tommytrieinp.c:tommy_trie_inplace_remove", "tommyds/tommytrieinp.c:tommy_trie_inplace_remove_existing"]}
{"id": "C34", "title": "Tree is a sorted set", "statement": "In any history of tommy_tree insert/remove/remove_existing under a comparison function that is a total order up to equality, search returns the element equal to the argument iff one was inserted and not removed; insert of an equal element changes nothing and returns the existing one; remove returns and removes exactly the equal element or returns 0; count is exact.", "quantifier": "every history, every total order", "why_tests_cant": "all shapes and rotations", "anchors": ["tommyds/tommytree.c:tommy_tree_insert", "tommyds/tommytree.c:tommy_tree_remove", "tommyds/tommytree.c:tommy_tree_search"]}
{"id": "C35", "title": "Tree foreach processes elements in order", "statement": "tommy_tree_foreach/foreach_arg call the function exactly once per element in increasing order, and tolerate a callback deallocating the object.", "quantifier": "every reachable tree, every callback", "why_tests_cant": "all shapes", "anchors": ["tommyds/tommytree.c:tommy_tree_foreach", "tommyds/tommytree.c:tommy_tree_foreach_arg"]}
{"id": "C36", "title": "Tree search with a coarser comparison", "statement": "tommy_tree_search_compare with a comparison that is a suborder of the tree order returns an element accepted by it iff one exists.", "quantifier": "every reachable tree, every suborder", "why_tests_cant": "all functions", "anchors": ["tommyds/tommytree.c:tommy_tree_search_compare"]}
{"id": "C37", "title": "Tree depth is logarithmic", "statement": "In every reachable tree with N elements the longest path from the root has at most about 1.44*log2(N+2)+1 nodes, so every operation is O(log N).", "quantifier": "every history", "why_tests_cant": "worst case over all histories", "anchors": ["tommyds/tommytree.c:tommy_tree_balance"]}
{"id": "C38", "title": "Tree is a standard AVL tree", "statement": "The header says the tree is a standard AVL tree: in every reachable tree the heights of the two subtrees of every node differ by at most one.", "quantifier": "every history", "why_tests_cant": "all histories", "anchors": ["tommyds/tommytree.h:file comment", "tommyds/tommytree.c:tommy_tree_insert"]}
{"id": "C39", "title": "Tree rebalancing always terminates", "statement": "The mutually recursive rebalancing functions terminate without undefined behaviour on every tree reached by inserting and removing, including the removal that hangs a whole subtree below the rightmost node of another.", "quantifier": "every reachable tree", "why_tests_cant": "termination over all trees", "anchors": ["tommyds/tommytree.c:tommy_tree_balance", "tommyds/tommytree.c:tommy_tree_move_right"]}
{"id": "C40", "title": "Integer hash of 32 bits is reversible", "statement": "tommy_inthash_u32 is a bijection on 32-bit values: distinct keys have distinct hashes.", "quantifier": "all 2^32 keys", "why_tests_cant": "all pairs of inputs", "anchors": ["tommyds/tommyhash.h:tommy_inthash_u32"]}
{"id": "C41", "title": "Integer hash of 64 bits is reversible", "statement": "tommy_inthash_u64 is a bijection on 64-bit values.", "quantifier": "all 2^64 keys", "why_tests_cant": "all pairs of inputs", "anchors": ["tommyds/tommyhash.h:tommy_inthash_u64"]}
{"id": "C42", "title": "Byte hashes implement lookup3 and read only the key", "statement": "tommy_hash_u32 and tommy_hash_u64 compute Jenkins' lookup3 (zero-padded 12-byte blocks) of exactly key_len bytes, never read outside [key, key+key_len), and do not depend on the platform byte order branch.", "quantifier": "every key, length and initial value", "why_tests_cant": "all lengths and contents", "anchors": ["tommyds/tommyhash.c:tommy_hash_u32", "tommyds/tommyhash.c:tommy_hash_u64"]}
{"id": "C43", "title": "The low half of the 64-bit hash is the 32-bit hash", "statement": "For an initial value below 2^32 the low 32 bits of tommy_hash_u64 equal tommy_hash_u32.", "quantifier": "every key and initial value", "why_tests_cant": "all inputs", "anchors": ["tommyds/tommyhash.c:tommy_hash_u32", "tommyds/tommyhash.c:tommy_hash_u64"]}
{"id": "C44", "title": "String hash depends only on the string", "statement": "tommy_strhash_u32 of a 0-terminated string depends only on init_val and the bytes before the terminator, whatever memory follows.", "quantifier": "every string and every following memory content", "why_tests_cant": "all contents after the terminator", "anchors": ["tommyds/tommyhash.c:tommy_strhash_u32", "tommyds/tommytypes.h:tommy_haszero_u32"]}
{"id": "C45", "title": "String hash reads only the string", "statement": "tommy_strhash_u32 never reads memory outside the 0-terminated string it is given.", "quantifier": "every string", "why_tests_cant": "over-reads usually go unnoticed in tests", "anchors": ["tommyds/tommyhash.c:tommy_strhash_u32"]}
{"id": "C46", "title": "Integer log2", "statement": "tommy_ilog2_u32/u64 (portable de Bruijn version) return the index of the most significant set bit of every non-zero value, and agree with the compiler-intrinsic version.", "quantifier": "all non-zero 32 and 64 bit values", "why_tests_cant": "2^64 inputs", "anchors": ["tommyds/tommytypes.h:tommy_ilog2_u32", "tommyds/tommytypes.h:tommy_ilog2_u64"]}
{"id": "C47", "title": "Count trailing zeros", "statement": "tommy_ctz_u32/u64 (portable de Bruijn version) return the index of the least significant set bit of every non-zero value.", "quantifier": "all non-zero 32 and 64 bit values", "why_tests_cant": "2^64 inputs", "anchors": ["tommyds/tommytypes.h:tommy_ctz_u32", "tommyds/tommytypes.h:tommy_ctz_u64"]}
{"id": "C48", "title": "Round up to a power of two", "statement": "tommy_roundup_pow2_u32/u64 return the smallest power of two not below the value, for every value from 1 to 2^31 / 2^63.", "quantifier": "all values", "why_tests_cant": "2^64 inputs", "anchors": ["tommyds/tommytypes.h:tommy_roundup_pow2_u32", "tommyds/tommytypes.h:tommy_roundup_pow2_u64"]}
{"id": "C49", "title": "Zero byte detection is exact", "statement": "tommy_haszero_u32(v) is 1 iff one of the four bytes of v is zero.", "quantifier": "all 2^32 values", "why_tests_cant": "all values", "anchors": ["tommyds/tommytypes.h:tommy_haszero_u32"]}
{"id": "C50", "title": "Linear hashtable load bounds in every resize state", "statement": "In every reachable state of tommy_hashlin the vector size is a power of two equal to 1 << bucket_bit, there is at least one valid bucket per element, at least 2*(count-1) valid buckets unless the table is shrinking, and split is 0 in the stable state and strictly between 0 and low_max, with bucket_max = 2*low_max, in the growing and shrinking states.", "quantifier": "every history", "why_tests_cant": "bounds hold over all interleavings of growth and shrinking", "anchors": ["tommyds/tommyhashlin.c:hashlin_grow_step", "tommyds/tommyhashlin.c:hashlin_shrink_step"]}
{"id": "C51", "title": "Linear hashtable amortised resize work", "statement": "Over any history of tommy_hashlin operations the total number of buckets split or merged is at most eight times the number of inserts and removes.", "quantifier": "every history", "why_tests_cant": "amortised bound over unbounded adaptive histories", "anchors": ["tommyds/tommyhashlin.c:hashlin_grow_step", "tommyds/tommyhashlin.c:hashlin_shrink_step"]}
{"id": "C52", "title": "Array memory_usage is exact", "statement": "After any history, the memory_usage function of each of the four arrays returns exactly the number of bytes of heap blocks the array holds.", "quantifier": "every history, every element size", "why_tests_cant": "all growth histories", "anchors": ["tommyds/tommyarray.c:tommy_array_memory_usage", "tommyds/tommyarrayof.c:tommy_arrayof_memory_usage", "tommyds/tommyarrayblk.c:tommy_arrayblk_memory_usage", "tommyds/tommyarrayblkof.c:tommy_arrayblkof_memory_usage"]}
{"id": "C53", "title": "Blocked array growth covers every requested position", "statement": "After tommy_arrayblk_grow(n) on an empty array, every position below n can be referenced without a failed assertion, for every n that fits in tommy_size_t.", "quantifier": "every size up to 2^64 - 1", "why_tests_cant": "sizes close to 2^64", "anchors": ["tommyds/tommyarrayblk.c:tommy_arrayblk_grow"]}
{"id": "C54", "title": "Hashtable memory_usage is exact", "statement": "After any history, the memory_usage function of each of the three hashtables returns exactly the number of bytes of heap blocks the table holds plus the bytes of the nodes of its elements.", "quantifier": "every history", "why_tests_cant": "all growth and shrink histories, including states in the middle of a linear resize", "anchors": ["tommyds/tommyhashtbl.c:tommy_hashtable_memory_usage", "tommyds/tommyhashdyn.c:tommy_hashdyn_memory_usage", "tommyds/tommyhashlin.c:tommy_hashlin_memory_usage"]}
{"id": "C55", "title": "Containers sharing one memory do not disturb each other", "statement": "A client uses any number of containers of any kind (lists, hashtables, trees, tries, arrays, allocators) on one heap, with nodes of several containers embedded in the same malloc'ed objects or in blocks of the allocators, and allocates, writes, reads and frees its own memory in between. If it respects the precondition of each operation, every container answers as if it were alone, there is no undefined behaviour, no memory outside the containers, their blocks and the objects handed over changes, and when all containers are done the only live heap blocks are the client's.", "quantifier": "every list of containers, every adaptive interleaving of their operations", "why_tests_cant": "combinations of containers and interleavings are unbounded", "anchors": ["tommyds/tommytypes.h:tommy_node", "tommyds/tommylist.h", "tommyds/tommyhashlin.c", "tommyds/tommytree.c", "tommyds/tommytrie.c", "tommyds/tommyarray.c", "tommyds/tommyalloc.c"]}
{"id": "C56", "title": "The payload of stored objects is never touched", "statement": "In any history of any set of containers, a word of the client that is not part of a node currently handed to a container always reads back as the value the client last wrote there, also while the surrounding object is stored in containers.", "quantifier": "every list of containers, every adaptive interleaving", "why_tests_cant": "a stray write may hit any word of any object at any point of any history", "anchors": ["tommyds/tommytypes.h:tommy_node"]}
{"id": "C57", "title": "The hashtables are interchangeable", "statement": "Two of the three hashtables given the same sequence of init, insert, remove, remove_existing, search, count and done operations return the same answers and call the search function with the same arguments in the same order, whatever the memory looks like at the start and wherever malloc places the blocks. (bucket and foreach are excluded: they show the order of the buckets.)", "quantifier": "every pair of tables, every adaptive client, every start memory and malloc", "why_tests_cant": "histories, hash values and heap layouts are unbounded", "anchors": ["tommyds/tommyhashtbl.h", "tommyds/tommyhashdyn.c", "tommyds/tommyhashlin.c"]}
{"id": "C58", "title": "Dynamic hashtable amortised resize work", "statement": "Over any history of a dynamic hashtable the resizes visit at most six buckets and elements per insert or remove in total: a growing resize counts the old buckets and all the elements, a shrinking one the new buckets.", "quantifier": "every adaptive history of any length", "why_tests_cant": "a bound over all histories", "anchors": ["tommyds/tommyhashdyn.c:tommy_hashdyn_resize", "tommyds/tommyhashdyn.c:hashdyn_grow_step", "tommyds/tommyhashdyn.c:hashdyn_shrink_step"]}
{"id": "C59", "title": "Trie operations take a constant number of steps", "statement": "However many elements are stored, no loop of the trie goes through more than 10 levels and none of the inplace trie through more than 14 in any operation.", "quantifier": "every adaptive history, every set of 32-bit keys", "why_tests_cant": "every set of keys", "anchors": ["tommyds/tommytrie.c", "tommyds/tommytrieinp.c"]}
{"id": "C60", "title": "Sorting a list that is in order is linear", "statement": "Sorting a list of N elements that is already in order calls the comparison function exactly N - 1 times and leaves the list as it is; one in strictly reverse order takes exactly 2 (N - 1) calls and is reversed.", "quantifier": "every list, every comparison function", "why_tests_cant": "every length and every order", "anchors": ["tommyds/tommychain.h:tommy_chain_merge_degenerated", "tommyds/tommychain.h:tommy_chain_mergesort", "tommyds/tommylist.h:tommy_list_sort"]}
{"id": "C61", "title": "Tries and hashtables with keys are interchangeable", "statement": "A client that inserts elements with keys, removes them by key or by node, searches, counts and (for the tries) looks at buckets, and decides each operation from the answers so far, gets from the trie, from the inplace trie and from each of the three hashtables used with the key as hash the same answers: those of a list kept in insertion order.", "quantifier": "every such client, every placement of the objects and of the blocks", "why_tests_cant": "histories of any length, adaptive clients, every set of keys", "anchors": ["tommyds/tommytrie.c:tommy_trie_insert", "tommyds/tommytrie.c:tommy_trie_remove", "tommyds/tommytrieinp.c:tommy_trie_inplace_insert", "tommyds/tommytrieinp.c:tommy_trie_inplace_remove", "tommyds/tommyhashtbl.h:tommy_hashtable_search", "tommyds/tommyhashdyn.h:tommy_hashdyn_search", "tommyds/tommyhashlin.h:tommy_hashlin_search"]}
{"id": "C62", "title": "The mixing of the byte hashes loses nothing", "statement": "tommy_mix and tommy_final are one-to-one maps of the three 32-bit variables onto themselves; so two keys of the same length that differ within one block of 12 bytes leave the hash in different states.", "quantifier": "all 2^96 states; all keys and seeds", "why_tests_cant": "2^96 states cannot be enumerated", "anchors": ["tommyds/tommyhash.c:tommy_mix", "tommyds/tommyhash.c:tommy_final", "tommyds/tommyhash.c:tommy_hash_u32", "tommyds/tommyhash.c:tommy_hash_u64"]}
{"id": "C63", "title": "The arrays of pointers are interchangeable", "statement": "A client that grows an array of pointers, asks its size, sets, gets and inserts, deciding each operation from the answers so far, gets from tommy_array and from tommy_arrayblk the same answers: those of a zero-initialised vector.", "quantifier": "every such client, every heap", "why_tests_cant": "histories of any length, adaptive clients", "anchors": ["tommyds/tommyarray.h:tommy_array_set", "tommyds/tommyarray.h:tommy_array_get", "tommyds/tommyarray.h:tommy_array_insert", "tommyds/tommyarray.c:tommy_array_grow", "tommyds/tommyarrayblk.h:tommy_arrayblk_set", "tommyds/tommyarrayblk.h:tommy_arrayblk_get", "tommyds/tommyarrayblk.h:tommy_arrayblk_insert", "tommyds/tommyarrayblk.c:tommy_arrayblk_grow"]}
{"id": "C64", "title": "The allocator requests a segment only when all its blocks are in use", "statement": "tommy_allocator_alloc requests one segment from malloc if every block of every segment is in use, and none otherwise; so after any history the allocator has at most one segment more than the full ones that hold the most blocks that were in use at once since init.", "quantifier": "every history of allocations and frees, every configuration that fits (C27), every placement of the segments", "why_tests_cant": "histories of any length, every size and alignment, every address that malloc may return", "anchors": ["tommyds/tommyalloc.c:tommy_allocator_alloc", "tommyds/tommyalloc.c:tommy_allocator_free"]}
{"id": "C65", "title": "Searches, counts and visits write nothing", "statement": "The operations that look something up (head, tail, count, search, bucket, get, ref, the hash functions) and the visits with a callback that does not write make no store, not even one that puts back the same value, and no call of the heap, and leave the memory exactly as it was; so any number of them can run at the same time.", "quantifier": "every memory, valid or not, every argument, every comparison and callback that do not write", "why_tests_cant": "a write that puts back the same value or that happens for rare inputs is not seen by testing answers", "anchors": ["tommyds/tommylist.h:tommy_list_foreach", "tommyds/tommylist.h:tommy_list_count", "tommyds/tommyhashtbl.h:tommy_hashtable_search", "tommyds/tommyhashdyn.h:tommy_hashdyn_search", "tommyds/tommyhashlin.h:tommy_hashlin_search", "tommyds/tommytrie.c:tommy_trie_bucket", "tommyds/tommytrieinp.c:tommy_trie_inplace_bucket", "tommyds/tommytree.c:tommy_tree_search", "tommyds/tommyarray.h:tommy_array_get", "tommyds/tommyarrayblk.h:tommy_arrayblk_get", "tommyds/tommyhash.c:tommy_hash_u32"]}
{"id": "C66", "title": "Each bucket of a hashtable holds exactly the elements whose hashes select it", "statement": "After any history the chain that bucket returns for a hash consists of exactly the elements whose hashes select that bucket, those with equal hashes in insertion order; a search makes at most one step for each of them, and the chains together hold every element once, so that their average length is the number of elements over the number of buckets.", "quantifier": "every history of every allowed client, every hash, every comparison that only looks, every state of the growing or shrinking of the table", "why_tests_cant": "a table that puts elements into too few buckets answers every search correctly and is only slow; a misplaced element shows up only for particular hashes at a particular size", "anchors": ["tommyds/tommyhashtbl.h:tommy_hashtable_bucket", "tommyds/tommyhashtbl.h:tommy_hashtable_search", "tommyds/tommyhashdyn.h:tommy_hashdyn_bucket", "tommyds/tommyhashdyn.c:tommy_hashdyn_resize", "tommyds/tommyhashlin.h:tommy_hashlin_bucket_ref", "tommyds/tommyhashlin.c:hashlin_grow_step", "tommyds/tommyhashlin.c:hashlin_shrink_step"]}
{"id": "C67", "title": "The tree is safe with a comparison that is not an order", "statement": "Whatever numbers the comparison returns, also when they contradict each other or change from call to call, every history of tommy_tree insert, remove, search, search_compare, count, foreach and foreach with free runs without undefined behaviour and with logarithmically many comparisons per operation; an insertion adds its element or returns an element of the tree, a removal removes and returns one element or returns 0 and removes none; the tree always holds exactly the elements added and not removed, stays balanced, and its count is exact. (tommy_tree_remove_existing is excepted: its assert fails when an element does not compare equal to itself.)", "quantifier": "every history, every comparison that returns and does not write", "why_tests_cant": "the comparisons that break an invariant are the ones nobody thinks of, and damage to the links shows up only later", "anchors": ["tommyds/tommytree.c:tommy_tree_insert", "tommyds/tommytree.c:tommy_tree_remove", "tommyds/tommytree.c:tommy_tree_search_node", "tommyds/tommytree.c:tommy_tree_balance"]}
{"id": "C68", "title": "The segmented containers keep and hand out only pointers into their blocks", "statement": "After every history, every pointer that tommy_array, tommy_arrayof and tommy_hashlin keep in their vector of segments, and every pointer to an element that the arrays hand out, points into a live heap block or just past its end, as C asks of the result of pointer arithmetic.", "quantifier": "every history of every client", "why_tests_cant": "a pointer outside its object works on the machines the tests run on; only a proof about all kept pointers, or a counterexample, decides it", "anchors": ["tommyds/tommyarray.c:tommy_array_grow", "tommyds/tommyarrayof.c:tommy_arrayof_grow", "tommyds/tommyhashlin.c:hashlin_grow_step"]}
{"id": "C69", "title": "The containers ask malloc for no more than their contents need", "statement": "In every history every single request that a container makes to malloc or calloc is bounded: tommy_hashtable at most max(128, 16 n) bytes for the size n given to init, tommy_hashdyn max(128, 32 k) and tommy_hashlin max(512, 16 k) with k objects in existence, tommy_array max(512, 8 n) and tommy_arrayof max(64 e, e n) when growing to n elements (of e bytes), tommy_arrayblk and tommy_arrayblkof one block of 4096 elements or the vector of blocks, tommy_allocator and tommy_trie one segment of max(4032, 8 + alignment + block size).", "quantifier": "every history of every client, every behaviour of malloc, every failing request", "why_tests_cant": "a request too large by a constant factor, or made in one rare transition, succeeds in a test and shows up as memory exhaustion in use", "anchors": ["tommyds/tommyhashtbl.c:tommy_hashtable_init", "tommyds/tommyhashdyn.c:tommy_hashdyn_resize", "tommyds/tommyhashlin.c:hashlin_grow_step", "tommyds/tommyarray.c:tommy_array_grow", "tommyds/tommyarrayof.c:tommy_arrayof_grow", "tommyds/tommyarrayblk.c:tommy_arrayblk_grow", "tommyds/tommyarrayblkof.c:tommy_arrayblkof_grow", "tommyds/tommyalloc.c:tommy_allocator_alloc"]}
{"id": "C70", "title": "With enough memory every history completes", "statement": "If malloc hands out fresh regions one after the other, each large enough for the largest request of C69, and the address space holds one block for each init, insert and remove of a hashtable, one for init of an array, 64 segments and the blocks of 4096 elements for each grow or insert of an array, one segment for each allocation of an allocator and eleven for each insertion into a trie, then every history of every client of these containers runs to its end: it does not stop for lack of memory.", "quantifier": "every history of every client, every base address and stride of malloc, every initial memory below the base", "why_tests_cant": "a leak of blocks inside one operation, or a loop that allocates more than it must, only matters when memory is short", "anchors": ["tommyds/tommyhashtbl.c:tommy_hashtable_init", "tommyds/tommyhashdyn.c:tommy_hashdyn_resize", "tommyds/tommyhashlin.c:hashlin_grow_step", "tommyds/tommyarray.c:tommy_array_grow", "tommyds/tommyarrayof.c:tommy_arrayof_grow", "tommyds/tommyarrayblk.c:tommy_arrayblk_grow", "tommyds/tommyarrayblkof.c:tommy_arrayblkof_grow", "tommyds/tommyalloc.c:tommy_allocator_alloc", "tommyds/tommytrie.c:trie_bucket_insert"]}
{"id": "C71", "title": "Every memory access of the containers is an aligned access of their own memory", "statement": "In every history, with any memory of others beside the client's, every word that a function of the library reads or writes is at a multiple of 8, and no access, read or write, touches the memory of others: no over-read, no stray read, no misaligned access, including those whose value is not used. The objects, the container structures and the blocks of malloc are aligned to start with.", "quantifier": "every history of every client, every behaviour of malloc, all memory of others, aligned or not", "why_tests_cant": "a read past the end or a misaligned access whose value does not matter changes no result on x86; it faults only next to an unmapped page or on a strict machine", "anchors": ["tommyds/tommylist.h", "tommyds/tommylist.c:tommy_list_sort", "tommyds/tommyhashtbl.c", "tommyds/tommyhashdyn.c", "tommyds/tommyhashlin.c", "tommyds/tommyarray.c", "tommyds/tommyarrayof.c", "tommyds/tommyarrayblk.c", "tommyds/tommyarrayblkof.c", "tommyds/tommyalloc.c:tommy_allocator_alloc", "tommyds/tommytrie.c", "tommyds/tommytrieinp.c", "tommyds/tommytree.c"]}
{"id": "C72", "title": "The memory of others neither affects a container nor is affected by it", "statement": "In every history the answers of the container, the comparisons that it makes and the memory that it leaves are those of the same history run without the cells and the live heap blocks of others, and those cells and blocks are left as they were.", "quantifier": "every history of every client, every behaviour of malloc, all memory of others", "why_tests_cant": "a result that depends on memory outside the container (a stale or uninitialised word, a neighbouring object) depends on what the test happens to have there", "anchors": ["tommyds/tommylist.h", "tommyds/tommylist.c:tommy_list_sort", "tommyds/tommyhashtbl.c", "tommyds/tommyhashdyn.c", "tommyds/tommyhashlin.c", "tommyds/tommyarray.c", "tommyds/tommyarrayof.c", "tommyds/tommyarrayblk.c", "tommyds/tommyarrayblkof.c", "tommyds/tommyalloc.c:tommy_allocator_alloc", "tommyds/tommytrie.c", "tommyds/tommytrieinp.c", "tommyds/tommytree.c"]}
{"id": "C73", "title": "The operations documented as constant time access memory a constant number of times", "statement": "Whatever the contents of memory, an operation of a list other than count, foreach and sort makes at most 8 accesses; insertion and removal of a known node in the fixed hashtable 9 and 10; finding a bucket of any hashtable one; reaching an element of an array none or one; giving a block back to the allocator or taking one from its free list one; search, insertion and removal in a trie at most 13, 833 and 143, in the inplace trie 32, 42 and 125. Search in a hashtable makes 1 + 3 n accesses in a bucket of n elements, search in the tree 1 + 2 n in a tree of n levels, count and foreach of a list 1 + n and 1 + 2 n.", "quantifier": "every memory, every argument", "why_tests_cant": "a walk along a long chain where a constant time access is promised gives the right answer, late", "anchors": ["tommyds/tommylist.h", "tommyds/tommyhashtbl.c:tommy_hashtable_insert", "tommyds/tommyhashlin.h:tommy_hashlin_bucket", "tommyds/tommyarray.h:tommy_array_ref", "tommyds/tommyarrayblk.h:tommy_arrayblk_ref", "tommyds/tommyalloc.c:tommy_allocator_alloc", "tommyds/tommytrie.c", "tommyds/tommytrieinp.c", "tommyds/tommytree.c:tommy_tree_search"]}
{"id": "C74", "title": "Sorting and visiting access memory in proportion to the work promised", "statement": "Sorting a list of N elements makes at most 8 N ceil(log2 N) + 9 N + 6 memory accesses, whatever the comparison function answers. A visit (foreach) of a hashtable makes at most one access per bucket and two per element, of a list one and two per element, of a tree three per element.", "quantifier": "every list, every comparison function, every memory", "why_tests_cant": "a quadratic walk hidden in one branch of the merge gives a sorted list, late, for some inputs only", "anchors": ["tommyds/tommychain.h:tommy_chain_mergesort", "tommyds/tommylist.c:tommy_list_sort", "tommyds/tommyhashtbl.c:tommy_hashtable_foreach", "tommyds/tommyhashdyn.c:tommy_hashdyn_foreach", "tommyds/tommyhashlin.c:tommy_hashlin_foreach", "tommyds/tommytree.c:tommy_tree_foreach"]}
{"id": "C75", "title": "Operations of the tree access memory in proportion to the length of a path", "statement": "In every history of a tree of N elements an insertion makes at most 7 + 627 k memory accesses, a removal at most 5 + 19 k + 304 k^2, a search at most 1 + 2 k, where k <= 1.4407 log2(N + 1) + 1; a visit at most 3 N (4 N with an argument), and init, count and memory_usage none. An update makes at most 19 accesses per call of tommy_tree_balance, and 7 more.", "quantifier": "every history of every client, every operation of it, every comparison function that is a total preorder", "why_tests_cant": "the number of accesses of one operation is not observable, and the worst case needs particular large trees", "anchors": ["tommyds/tommytree.c:tommy_tree_insert", "tommyds/tommytree.c:tommy_tree_remove", "tommyds/tommytree.c:tommy_tree_remove_existing", "tommyds/tommytree.c:tommy_tree_search", "tommyds/tommytree.c:tommy_tree_balance", "tommyds/tommytree.c:tommy_tree_foreach"]}
{"id": "C76", "title": "Operations of the dynamic hashtable access memory a constant number of times, amortised", "statement": "In every history of a dynamic hashtable an insertion makes at most 9 + 9 w memory accesses, a removal of a known node at most 10 + 9 w, a removal by search at most 10 + 3 b + 9 w, a search at most 1 + 3 b, where b is the number of elements in the bucket and w the number of buckets and elements that the operation goes through because the table is resized (0 when it is not); init, count and done make none. A whole history of insertions and removals of known nodes makes at most 64 accesses per operation.", "quantifier": "every history of every client whose comparison functions only read, every operation of it", "why_tests_cant": "the number of accesses is not observable from the outside, and the sum over all histories cannot be enumerated", "anchors": ["tommyds/tommyhashdyn.c:tommy_hashdyn_insert", "tommyds/tommyhashdyn.c:tommy_hashdyn_remove", "tommyds/tommyhashdyn.c:tommy_hashdyn_remove_existing", "tommyds/tommyhashdyn.c:tommy_hashdyn_resize", "tommyds/tommyhashdyn.h:tommy_hashdyn_search"]}
{"id": "C77", "title": "Operations of the fixed and the linear hashtable access memory in proportion to the bucket and to the buckets resized", "statement": "In every history of a fixed hashtable an insertion makes at most 9 memory accesses, a removal of a known node at most 10, a removal by search at most 10 + 3 b and a search at most 1 + 3 b, where b is the number of elements in the bucket; init writes each bucket once. In every history of a linear hashtable a search makes at most 1 + 3 b, a removal of a known node at most 10 + 7 w and a removal by search at most 10 + 3 b + 7 w, where w is the number of buckets split or joined by the operation; an insertion makes at most 9 if w is 0 and at most 9 + 3 w + 9 n otherwise, where n is the number of elements; init, count and done make none.", "quantifier": "every history of every client whose comparison functions only read, every operation of it", "why_tests_cant": "the number of accesses is not observable from the outside, and the histories and the distributions of the elements over the buckets cannot be enumerated", "anchors": ["tommyds/tommyhashtbl.c:tommy_hashtable_init", "tommyds/tommyhashtbl.c:tommy_hashtable_insert", "tommyds/tommyhashtbl.c:tommy_hashtable_remove_existing", "tommyds/tommyhashtbl.c:tommy_hashtable_remove", "tommyds/tommyhashtbl.h:tommy_hashtable_search", "tommyds/tommyhashlin.c:tommy_hashlin_insert", "tommyds/tommyhashlin.c:hashlin_grow_step", "tommyds/tommyhashlin.c:hashlin_shrink_step", "tommyds/tommyhashlin.c:tommy_hashlin_remove_existing", "tommyds/tommyhashlin.c:tommy_hashlin_remove", "tommyds/tommyhashlin.h:tommy_hashlin_search"]}
{"id": "C78", "title": "Operations of the linear and the dynamic hashtable access memory a constant number of times, amortised, and thrice per element searched", "statement": "A whole history of insertions and removals of known nodes of a linear hashtable, with any number of init, count and done, makes at most 102 memory accesses per operation, the splitting and joining of buckets included, whatever the hashes: also when all the elements are in one bucket. With searches, removals by search and reading of buckets it makes at most 3 more for each element in each bucket searched. The same holds of the dynamic hashtable with 64 accesses per operation.", "quantifier": "every history of every client without visits of all the elements whose comparison functions only read, whatever the number of elements and their hashes", "why_tests_cant": "one insertion can go through all the elements, so only the sum over a whole history is bounded, and neither histories nor distributions of hashes can be enumerated", "anchors": ["tommyds/tommyhashlin.c:tommy_hashlin_insert", "tommyds/tommyhashlin.c:tommy_hashlin_remove_existing", "tommyds/tommyhashlin.c:hashlin_grow_step", "tommyds/tommyhashlin.c:hashlin_shrink_step", "tommyds/tommyhashlin.c:tommy_hashlin_remove", "tommyds/tommyhashlin.h:tommy_hashlin_search", "tommyds/tommyhashdyn.c:tommy_hashdyn_insert", "tommyds/tommyhashdyn.c:tommy_hashdyn_remove", "tommyds/tommyhashdyn.h:tommy_hashdyn_search"]}
{"id": "C79", "title": "Growing an array accesses none of its elements", "statement": "Growing an array of pointers or of objects makes no memory access at all besides calloc, however many elements it holds and gains; a blocked array makes one per block added. So an insertion makes one access, N insertions in a new array make at most N, in a new blocked array at most 2 N and one for each 4096 elements. Releasing the memory makes no access, or one per block.", "quantifier": "every array struct and every memory, every number of elements to grow to, every list of elements to insert (shorter than 2^64 - 4095 for the blocked array)", "why_tests_cant": "tests measure the time of a few sizes; that the growth never copies must hold of every size and every content", "anchors": ["tommyds/tommyarray.c:tommy_array_grow", "tommyds/tommyarray.c:tommy_array_done", "tommyds/tommyarray.h:tommy_array_insert", "tommyds/tommyarrayof.c:tommy_arrayof_grow", "tommyds/tommyarrayblk.c:tommy_arrayblk_grow", "tommyds/tommyarrayblk.c:tommy_arrayblk_done", "tommyds/tommyarrayblk.h:tommy_arrayblk_insert", "tommyds/tommyarrayblkof.c:tommy_arrayblkof_grow"]}
