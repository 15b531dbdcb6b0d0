{
 "claims": [
  {
   "property": "C01",
   "status": "proved",
   "theorems": [
    "C01_list_history"
   ],
   "note": ""
  },
  {
   "property": "C02",
   "status": "proved",
   "theorems": [
    "C02_list_concat"
   ],
   "note": ""
  },
  {
   "property": "C03",
   "status": "proved",
   "theorems": [
    "C03_list_sort_sorted_permutation"
   ],
   "note": ""
  },
  {
   "property": "C04",
   "status": "proved",
   "theorems": [
    "C04_list_sort_stable"
   ],
   "note": ""
  },
  {
   "property": "C05",
   "status": "proved",
   "theorems": [
    "C05_list_sort_any_comparator"
   ],
   "note": ""
  },
  {
   "property": "C06",
   "status": "proved",
   "theorems": [
    "C06_list_sort_comparisons"
   ],
   "note": ""
  },
  {
   "property": "C07",
   "status": "proved",
   "theorems": [
    "C07_list_foreach",
    "C07_list_foreach_arg",
    "C07_list_foreach_any",
    "C07_list_foreach_arg_any",
    "C07_list_foreach_free"
   ],
   "note": ""
  },
  {
   "property": "C08",
   "status": "proved",
   "theorems": [
    "C08_hashtable_history",
    "C08_hashtable_search"
   ],
   "note": ""
  },
  {
   "property": "C09",
   "status": "proved",
   "theorems": [
    "C09_hashtable_remove",
    "C09_hashtable_remove_existing",
    "C09_hashtable_insert",
    "C09_hashtable_count"
   ],
   "note": ""
  },
  {
   "property": "C10",
   "status": "proved",
   "theorems": [
    "C10_hashtable_init_size"
   ],
   "note": ""
  },
  {
   "property": "C11",
   "status": "proved",
   "theorems": [
    "C11_hashdyn_history",
    "C11_hashdyn_search"
   ],
   "note": ""
  },
  {
   "property": "C12",
   "status": "proved",
   "theorems": [
    "C12_hashdyn_remove",
    "C12_hashdyn_remove_existing",
    "C12_hashdyn_insert",
    "C12_hashdyn_count"
   ],
   "note": ""
  },
  {
   "property": "C13",
   "status": "proved",
   "theorems": [
    "C13_hashdyn_load"
   ],
   "note": ""
  },
  {
   "property": "C14",
   "status": "proved",
   "theorems": [
    "C14_hashlin_history",
    "C14_hashlin_search"
   ],
   "note": ""
  },
  {
   "property": "C15",
   "status": "proved",
   "theorems": [
    "C15_hashlin_remove",
    "C15_hashlin_remove_existing",
    "C15_hashlin_insert",
    "C15_hashlin_count"
   ],
   "note": ""
  },
  {
   "property": "C16",
   "status": "partial",
   "theorems": [
    "C16_hashlin_two_buckets_per_element_refuted",
    "C16_hashlin_load_partial"
   ],
   "note": "The clause 'at least twice as many valid buckets as elements after an insertion' is refuted by a concrete history (64 elements, 72 valid buckets, shrinking). The other clauses are proved in C16_hashlin_load_partial; the true bounds are C50."
  },
  {
   "property": "C17",
   "status": "partial",
   "theorems": [
    "C17_hashlin_constant_work_refuted"
   ],
   "note": "Refuted: a family of histories ends with an insertion that splits 64*2^k - 8 buckets. The amortised bound that does hold is C51."
  },
  {
   "property": "C18",
   "status": "proved",
   "theorems": [
    "C18_hashtable_bucket",
    "C18_hashdyn_bucket",
    "C18_hashlin_bucket"
   ],
   "note": ""
  },
  {
   "property": "C19",
   "status": "proved",
   "theorems": [
    "C19_hashtable_foreach",
    "C19_hashtable_foreach_any",
    "C19_hashdyn_foreach",
    "C19_hashdyn_foreach_any",
    "C19_hashlin_foreach",
    "C19_hashlin_foreach_any"
   ],
   "note": ""
  },
  {
   "property": "C20",
   "status": "proved",
   "theorems": [
    "C20_hashtable_heap",
    "C20_hashdyn_heap",
    "C20_hashlin_heap"
   ],
   "note": ""
  },
  {
   "property": "C21",
   "status": "proved",
   "theorems": [
    "C21_array_history",
    "C21_array_size",
    "C21_array_get",
    "C21_array_read"
   ],
   "note": ""
  },
  {
   "property": "C22",
   "status": "proved",
   "theorems": [
    "C22_array_refs",
    "C22_array_ref_inside",
    "C22_arrayof_refs",
    "C22_arrayof_ref_inside",
    "C22_arrayblk_refs",
    "C22_arrayblk_ref_inside",
    "C22_arrayblkof_refs",
    "C22_arrayblkof_ref_inside"
   ],
   "note": ""
  },
  {
   "property": "C23",
   "status": "proved",
   "theorems": [
    "C23_arrayof_history",
    "C23_arrayof_size",
    "C23_arrayof_read"
   ],
   "note": ""
  },
  {
   "property": "C24",
   "status": "proved",
   "theorems": [
    "C24_arrayblk_history",
    "C24_arrayblk_size",
    "C24_arrayblk_get",
    "C24_arrayblk_read",
    "C24_arrayblk_memory"
   ],
   "note": "The vector behaviour is proved for every history; the element blocks exceed the size by less than one block of 4096 elements, and the table of block pointers adds 8*max(64, <2*blocks) bytes, which the theorem states exactly. Sizes above 2^64-4096 are excluded (see C53)."
  },
  {
   "property": "C25",
   "status": "proved",
   "theorems": [
    "C25_arrayblkof_history",
    "C25_arrayblkof_size",
    "C25_arrayblkof_read",
    "C25_arrayblkof_memory"
   ],
   "note": ""
  },
  {
   "property": "C26",
   "status": "proved",
   "theorems": [
    "C26_array_done",
    "C26_arrayof_done",
    "C26_arrayblk_done",
    "C26_arrayblkof_done"
   ],
   "note": ""
  },
  {
   "property": "C27",
   "status": "partial",
   "theorems": [
    "C27_alloc_history",
    "C27_alloc_blocks",
    "C27_alloc_fresh",
    "C27_fits_align8",
    "C27_fits_align16",
    "C27_alloc_inside_refuted",
    "C27_alloc_first",
    "C27_carve_zero"
   ],
   "note": "Refuted in general: the 8 byte header is not subtracted, so for e.g. block size 16, 32 or 64 with the default alignment the first block exceeds its segment by 8 bytes (C27_alloc_inside_refuted; C27_alloc_first says exactly when). For every configuration that fits (decided in C27_fits_align8/16) and alignments below 8 or multiple of 8 the claim is proved for every history. Block size 0 makes alloc loop for ever."
  },
  {
   "property": "C28",
   "status": "proved",
   "theorems": [
    "C28_alloc_usage",
    "C28_alloc_reuse",
    "C28_alloc_done"
   ],
   "note": "For configurations that fit, see C27."
  },
  {
   "property": "C29",
   "status": "proved",
   "theorems": [
    "C29_trie_history",
    "C29_bucket_search"
   ],
   "note": "Adaptive clients of the whole interface, which also use the allocator of the trie; keys below 2^32, block size at least 64, a configuration of the allocator that fits (see C27). malloc may fail (no claim then)."
  },
  {
   "property": "C30",
   "status": "proved",
   "theorems": [
    "C30_remove",
    "C30_remove_existing",
    "C30_count"
   ],
   "note": "As C29."
  },
  {
   "property": "C31",
   "status": "proved",
   "theorems": [
    "C31_inner_blocks",
    "C31_memory_usage",
    "C31_no_leak",
    "C31_assertions"
   ],
   "note": "node_count is also shown to be a function of the set of present keys: the number of shared prefixes. Failing assertions and overflow of let_back are undefined behaviour in the model."
  },
  {
   "property": "C32",
   "status": "proved",
   "theorems": [
    "C32_inp_history",
    "C32_bucket_search"
   ],
   "note": "Adaptive clients of the whole interface; keys below 2^32; init may be called again at any time."
  },
  {
   "property": "C33",
   "status": "proved",
   "theorems": [
    "C33_remove",
    "C33_remove_existing",
    "C33_count",
    "C33_memory_usage",
    "C33_no_undefined_behaviour"
   ],
   "note": "As C32. A shift by 64 or more (or wrapped below zero) is undefined behaviour in the model, and the run is proved to succeed."
  },
  {
   "property": "C34",
   "status": "proved",
   "theorems": [
    "C34_tree_history",
    "C34_search",
    "C34_insert",
    "C34_remove",
    "C34_remove_existing",
    "C34_count",
    "C34_elements"
   ],
   "note": ""
  },
  {
   "property": "C35",
   "status": "proved",
   "theorems": [
    "C35_foreach",
    "C35_foreach_free",
    "C35_foreach_any"
   ],
   "note": "Every callback: C35_foreach_any, for callbacks that do not touch the nodes not yet visited; the histories use callbacks that record, and record and free."
  },
  {
   "property": "C36",
   "status": "proved",
   "theorems": [
    "C36_search_compare"
   ],
   "note": ""
  },
  {
   "property": "C37",
   "status": "partial",
   "theorems": [
    "C37_depth",
    "C37_comparisons",
    "C37_count_erase",
    "C37_work",
    "C37_balance_calls",
    "C37_remove_lower"
   ],
   "note": "Depth and number of comparisons are proved for every history and every operation. 'Every operation is O(log N)' also holds for the calls of tommy_tree_balance made by an insertion, but not for a removal: C37_work bounds them by the square of the depth, and C37_remove_lower shows that in every reachable tree some removal makes at least (log2(N+1)-3)^2/8 of them."
  },
  {
   "property": "C38",
   "status": "partial",
   "theorems": [
    "C38_avl_refuted",
    "C38_balanced_two"
   ],
   "note": "Refuted: inserting 3, 2, 1 leaves a chain of three nodes, because a new leaf gets index 0. The heights of the two subtrees differ by at most two in every reachable tree (C38_balanced_two)."
  },
  {
   "property": "C39",
   "status": "proved",
   "theorems": [
    "C39_balance",
    "C39_history"
   ],
   "note": ""
  },
  {
   "property": "C40",
   "status": "proved",
   "theorems": [
    "C40_inthash_u32_bijective"
   ],
   "note": ""
  },
  {
   "property": "C41",
   "status": "proved",
   "theorems": [
    "C41_inthash_u64_bijective"
   ],
   "note": ""
  },
  {
   "property": "C42",
   "status": "proved",
   "theorems": [
    "C42_hash_u32_is_lookup3",
    "C42_hash_u64_is_lookup3",
    "C42_read_branches_agree"
   ],
   "note": "Proved for both compiled branches of the 32-bit little endian read (x86 load and portable byte-wise read)."
  },
  {
   "property": "C43",
   "status": "proved",
   "theorems": [
    "C43_hash_u64_low_half"
   ],
   "note": ""
  },
  {
   "property": "C44",
   "status": "proved",
   "theorems": [
    "C44_strhash_only_string"
   ],
   "note": ""
  },
  {
   "property": "C45",
   "status": "partial",
   "theorems": [
    "C45_strhash_reads_only_string_refuted",
    "C45_strhash_overread_at_most_3_partial",
    "C45_strhash_overread_exact"
   ],
   "note": "Refuted: the function reads up to three bytes after the terminator (witness: the empty string in a one byte object). Proved instead: exactly the 4 byte group holding the terminator is read - it suffices, and if its last bytes are not readable the function has undefined behaviour, for every string and both read branches."
  },
  {
   "property": "C46",
   "status": "proved",
   "theorems": [
    "C46_ilog2_u32_msvc",
    "C46_ilog2_u64_msvc",
    "C46_ilog2_constant",
    "C46_ilog2_u32",
    "C46_ilog2_u64"
   ],
   "note": ""
  },
  {
   "property": "C47",
   "status": "proved",
   "theorems": [
    "C47_ctz_u32_msvc",
    "C47_ctz_u64_msvc",
    "C47_ctz_u32",
    "C47_ctz_u64"
   ],
   "note": ""
  },
  {
   "property": "C48",
   "status": "proved",
   "theorems": [
    "C48_roundup_pow2_u32",
    "C48_roundup_pow2_u64"
   ],
   "note": ""
  },
  {
   "property": "C49",
   "status": "proved",
   "theorems": [
    "C49_haszero_exact"
   ],
   "note": ""
  },
  {
   "property": "C50",
   "status": "proved",
   "theorems": [
    "C50_hashlin_load_bounds"
   ],
   "note": ""
  },
  {
   "property": "C51",
   "status": "proved",
   "theorems": [
    "C51_hashlin_amortised_work"
   ],
   "note": ""
  },
  {
   "property": "C52",
   "status": "proved",
   "theorems": [
    "C52_array_usage",
    "C52_arrayof_usage",
    "C52_arrayblk_usage",
    "C52_arrayblkof_usage"
   ],
   "note": ""
  },
  {
   "property": "C53",
   "status": "partial",
   "theorems": [
    "C53_arrayblk_grow_refuted",
    "C53_arrayblk_grow_wraps"
   ],
   "note": "Refuted for sizes above 2^64 - 4096 (count + 4095 wraps); C24 proves the claim for all other sizes."
  },
  {
   "property": "C54",
   "status": "proved",
   "theorems": [
    "C54_hashtable_memory_usage",
    "C54_hashdyn_memory_usage",
    "C54_hashlin_memory_usage"
   ],
   "note": ""
  },
  {
   "property": "C55",
   "status": "proved",
   "theorems": [
    "C55_world_history",
    "C55_own_answers",
    "C55_no_leak"
   ],
   "note": "The containers are those of the other properties, each with its own specification; the state of the client's memory (words it may use, words with known contents, live blocks) is part of the specification. Several lists count as one container; nodes and blocks of allocators move between the client's memory and the containers."
  },
  {
   "property": "C56",
   "status": "proved",
   "theorems": [
    "C56_read_last_write"
   ],
   "note": "A word may be read when the client knows its contents: it wrote it, or it was known at the beginning, and it was not part of a node handed over or of a freed block since then."
  },
  {
   "property": "C57",
   "status": "proved",
   "theorems": [
    "C57_tables_interchangeable"
   ],
   "note": "From the history theorems of the three tables: their common specification leaves no choice for these operations."
  },
  {
   "property": "C58",
   "status": "proved",
   "theorems": [
    "C58_hashdyn_amortised_work"
   ],
   "note": "The work of an operation is computed from the struct before and after it (number of buckets, number of elements), as the comment at hd_work explains."
  },
  {
   "property": "C59",
   "status": "proved",
   "theorems": [
    "C59_inp_constant_steps",
    "C59_trie_constant_steps"
   ],
   "note": "The model makes every loop of the tries take fuel; the history theorems hold with fuel 10 and 14, independent of the number of elements."
  },
  {
   "property": "C60",
   "status": "proved",
   "theorems": [
    "C60_list_sort_in_order",
    "C60_list_sort_reversed"
   ],
   "note": "The comparison may read the memory of the client; it is asked only about the pairs of elements of the list."
  },
  {
   "property": "C61",
   "status": "proved",
   "theorems": [
    "C61_trie",
    "C61_trie_inplace",
    "C61_hashtables"
   ],
   "note": "The reference is a list in insertion order; the bucket operation is excluded for the hashtables, whose buckets may also hold other hashes."
  },
  {
   "property": "C62",
   "status": "proved",
   "theorems": [
    "C62_mix_bijective",
    "C62_final_bijective",
    "C62_one_block"
   ],
   "note": "The state is the triple (a, b, c) before the return; the functions return c, or b and c."
  },
  {
   "property": "C63",
   "status": "proved",
   "theorems": [
    "C63_vectors"
   ],
   "note": "The reference is a list; a malloc failure ends the run (Env)."
  },
  {
   "property": "C64",
   "status": "proved",
   "theorems": [
    "C64_alloc_few_segments"
   ],
   "note": "Under the precondition of C27 that the configuration fits. The number of blocks in a segment depends on the padding, so the bound counts (segment_size - align) / block_size blocks for each; the exact condition is in ppost (AllocSpec.v)."
  },
  {
   "property": "C65",
   "status": "proved",
   "theorems": [
    "C65_only_reads_keeps_memory",
    "C65_list_reads",
    "C65_hashtable_reads",
    "C65_hashdyn_reads",
    "C65_hashlin_reads",
    "C65_trie_reads",
    "C65_inplace_trie_reads",
    "C65_tree_reads",
    "C65_array_reads",
    "C65_hash_reads"
   ],
   "note": "The functions are made of loads and effect-free steps alone (inductive predicate), so that a store of the same value is excluded too. The structs kept by value are not returned by these operations."
  },
  {
   "property": "C66",
   "status": "proved",
   "theorems": [
    "C66_hashtable_chains",
    "C66_hashdyn_chains",
    "C66_hashlin_chains"
   ],
   "note": "The steps of a search are those of its loop: with the length of the chain as fuel it never runs out. The work of changing the size is in C17, C51 and C58, the load in C13 and C50."
  },
  {
   "property": "C67",
   "status": "proved",
   "theorems": [
    "C67_tree_any_comparison",
    "C67_remove_existing_asserts"
   ],
   "note": "The comparison may depend on the whole memory, including the calls already made. tommy_tree_remove_existing is not among the operations of the client; the second theorem shows its assert failing."
  },
  {
   "property": "C68",
   "status": "partial",
   "theorems": [
    "C68_array_segments_in_blocks_refuted",
    "C68_arrayof_segments_in_blocks_refuted",
    "C68_hashlin_segments_in_blocks_refuted",
    "C68_array_ref_in_block_partial",
    "C68_arrayof_ref_in_block_partial"
   ],
   "note": "False for the pointers kept: from the second segment on the code stores &segment[-max], which is below the block. Refuted for tommy_array, tommy_arrayof and tommy_hashlin. Proved for the pointers to elements handed out by the arrays."
  },
  {
   "property": "C69",
   "status": "proved",
   "theorems": [
    "C69_hashtable_requests",
    "C69_hashdyn_requests",
    "C69_hashlin_requests",
    "C69_array_requests",
    "C69_arrayof_requests",
    "C69_arrayblk_requests",
    "C69_arrayblkof_requests",
    "C69_allocator_requests",
    "C69_trie_requests"
   ],
   "note": "The outcome Env carries the size of the request that malloc refused; as the heap of the initial memory may refuse any request, the bound on it is a bound on all requests. The lists, the tree and the inplace trie ask for none: their histories are proved to succeed."
  },
  {
   "property": "C70",
   "status": "proved",
   "theorems": [
    "C70_hashtable_completes",
    "C70_hashdyn_completes",
    "C70_hashlin_completes",
    "C70_array_completes",
    "C70_arrayof_completes",
    "C70_arrayblk_completes",
    "C70_arrayblkof_completes",
    "C70_allocator_completes",
    "C70_trie_completes"
   ],
   "note": "The comparison functions of a hashtable are assumed not to allocate and not to write, for all arguments. The lists, the tree and the inplace trie never allocate and are proved to succeed without such a premise."
  },
  {
   "property": "C71",
   "status": "proved",
   "theorems": [
    "C71_list_accesses",
    "C71_hashtable_accesses",
    "C71_hashdyn_accesses",
    "C71_hashlin_accesses",
    "C71_array_accesses",
    "C71_arrayof_accesses",
    "C71_arrayblk_accesses",
    "C71_arrayblkof_accesses",
    "C71_allocator_accesses",
    "C71_trie_accesses",
    "C71_trie_inplace_accesses",
    "C71_tree_accesses"
   ],
   "note": "The accesses that the client's comparison functions, malloc and free make are not counted. The comparison functions are assumed to read and not to write (only_looks). The words of the initial memory are assumed to be at multiples of 8."
  },
  {
   "property": "C72",
   "status": "proved",
   "theorems": [
    "C72_list_alone",
    "C72_hashtable_alone",
    "C72_hashdyn_alone",
    "C72_hashlin_alone",
    "C72_array_alone",
    "C72_arrayof_alone",
    "C72_arrayblk_alone",
    "C72_arrayblkof_alone",
    "C72_allocator_alone",
    "C72_trie_alone",
    "C72_trie_inplace_alone",
    "C72_tree_alone"
   ],
   "note": "A run that stops because malloc refuses a request (Env) is not compared: with memory of others beside, malloc may have less room. The comparison functions are assumed to read and not to write (only_looks)."
  },
  {
   "property": "C73",
   "status": "proved",
   "theorems": [
    "C73_list_accesses",
    "C73_list_walk_accesses",
    "C73_hashtable_accesses",
    "C73_array_accesses",
    "C73_allocator_accesses",
    "C73_trie_accesses",
    "C73_trie_inplace_accesses",
    "C73_tree_search_accesses"
   ],
   "note": "Insertions and removals that resize are the subject of C51 and C58, rebalancing of C37, the comparisons of sort of C06. The number of elements or levels appears as the fuel of the loop; that it suffices is C07, C59, C37 and C66."
  },
  {
   "property": "C74",
   "status": "proved",
   "theorems": [
    "C74_sort_accesses",
    "C74_visit_accesses"
   ],
   "note": "The accesses that the client's functions make are not counted. The visits are bounded in terms of the elements visited, which C07, C19 and C35 identify."
  },
  {
   "property": "C75",
   "status": "proved",
   "theorems": [
    "C75_update_accesses",
    "C75_history_accesses"
   ],
   "note": "The accesses of the comparison function and of the callback are not counted."
  },
  {
   "property": "C76",
   "status": "proved",
   "theorems": [
    "C76_operation_accesses",
    "C76_amortised_accesses"
   ],
   "note": "The accesses of malloc, calloc, free and of the client's functions are not counted (calloc and done therefore count as none). Visits of all the elements are in C74. The work of the resizes is that of C58."
  },
  {
   "property": "C77",
   "status": "proved",
   "theorems": [
    "C77_hashtable_operation_accesses",
    "C77_hashlin_operation_accesses"
   ],
   "note": "The bound of an insertion that splits buckets of the linear hashtable counts all the elements, not only those in the buckets that are split; the sum over a history is in C78."
  },
  {
   "property": "C78",
   "status": "proved",
   "theorems": [
    "C78_amortised_accesses",
    "C78_hashlin_searching_accesses",
    "C78_hashdyn_searching_accesses"
   ],
   "note": "Visits of all the elements are in C74. The accesses of malloc, calloc, free and of the client's functions are not counted. That at most four elements per insertion are linked again by the linear hashtable is proved on a copy of the table with counters (CostLinAmort.v)."
  },
  {
   "property": "C79",
   "status": "proved",
   "theorems": [
    "C79_growth_accesses",
    "C79_filling_accesses"
   ],
   "note": "The fields of the array struct, the table of segments included, are in a record of the model and reading them is not an access of memory; nor are the accesses of calloc and free counted."
  }
 ]
}