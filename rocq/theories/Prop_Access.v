(** * Properties C71 and C72: which memory is accessed, and memory of others. *)
From Verif Require Import ExamplesAccess.
Global Open Scope Z_scope.

(** In every allowed history, with any memory [F] and any live blocks [FL] of
    others beside the client's, the code makes a list of accesses such that every
    word is accessed at a multiple of 8, and none is in [F]. *)
Theorem C71_list_accesses : list_beside (@accesses_own).
Proof. exact (list_half _ half1). Qed.
Print Assumptions C71_list_accesses.
Theorem C71_hashtable_accesses : table_beside (@accesses_own) hashtable_table.
Proof. exact (table_half _ half1 _ hashtable_own). Qed.
Print Assumptions C71_hashtable_accesses.
Theorem C71_hashdyn_accesses : table_beside (@accesses_own) hashdyn_table.
Proof. exact (table_half _ half1 _ hashdyn_own). Qed.
Print Assumptions C71_hashdyn_accesses.
Theorem C71_hashlin_accesses : table_beside (@accesses_own) hashlin_table.
Proof. exact (table_half _ half1 _ hashlin_own). Qed.
Print Assumptions C71_hashlin_accesses.
Theorem C71_array_accesses : array_beside (@accesses_own) array_a.
Proof. exact (array_half _ half1 _ array_own). Qed.
Print Assumptions C71_array_accesses.
Theorem C71_arrayof_accesses : array_beside (@accesses_own) arrayof_a.
Proof. exact (array_half _ half1 _ arrayof_own). Qed.
Print Assumptions C71_arrayof_accesses.
Theorem C71_arrayblk_accesses : array_beside (@accesses_own) arrayblk_a.
Proof. exact (array_half _ half1 _ arrayblk_own). Qed.
Print Assumptions C71_arrayblk_accesses.
Theorem C71_arrayblkof_accesses : array_beside (@accesses_own) arrayblkof_a.
Proof. exact (array_half _ half1 _ arrayblkof_own). Qed.
Print Assumptions C71_arrayblkof_accesses.
Theorem C71_allocator_accesses : allocator_beside (@accesses_own).
Proof. exact (allocator_half _ half1). Qed.
Print Assumptions C71_allocator_accesses.
Theorem C71_trie_accesses : trie_beside (@accesses_own).
Proof. exact (trie_half _ half1). Qed.
Print Assumptions C71_trie_accesses.
Theorem C71_trie_inplace_accesses : inp_beside (@accesses_own).
Proof. exact (inp_half _ half1). Qed.
Print Assumptions C71_trie_inplace_accesses.
Theorem C71_tree_accesses : tree_beside (@accesses_own).
Proof. exact (tree_half _ half1). Qed.
Print Assumptions C71_tree_accesses.

(** In every allowed history, the answers and the final memory are those of the
    same history without [F] and [FL], and [F] and [FL] are left as they are. *)
Theorem C72_list_alone : list_beside (@same_alone).
Proof. exact (list_half _ half2). Qed.
Print Assumptions C72_list_alone.
Theorem C72_hashtable_alone : table_beside (@same_alone) hashtable_table.
Proof. exact (table_half _ half2 _ hashtable_own). Qed.
Print Assumptions C72_hashtable_alone.
Theorem C72_hashdyn_alone : table_beside (@same_alone) hashdyn_table.
Proof. exact (table_half _ half2 _ hashdyn_own). Qed.
Print Assumptions C72_hashdyn_alone.
Theorem C72_hashlin_alone : table_beside (@same_alone) hashlin_table.
Proof. exact (table_half _ half2 _ hashlin_own). Qed.
Print Assumptions C72_hashlin_alone.
Theorem C72_array_alone : array_beside (@same_alone) array_a.
Proof. exact (array_half _ half2 _ array_own). Qed.
Print Assumptions C72_array_alone.
Theorem C72_arrayof_alone : array_beside (@same_alone) arrayof_a.
Proof. exact (array_half _ half2 _ arrayof_own). Qed.
Print Assumptions C72_arrayof_alone.
Theorem C72_arrayblk_alone : array_beside (@same_alone) arrayblk_a.
Proof. exact (array_half _ half2 _ arrayblk_own). Qed.
Print Assumptions C72_arrayblk_alone.
Theorem C72_arrayblkof_alone : array_beside (@same_alone) arrayblkof_a.
Proof. exact (array_half _ half2 _ arrayblkof_own). Qed.
Print Assumptions C72_arrayblkof_alone.
Theorem C72_allocator_alone : allocator_beside (@same_alone).
Proof. exact (allocator_half _ half2). Qed.
Print Assumptions C72_allocator_alone.
Theorem C72_trie_alone : trie_beside (@same_alone).
Proof. exact (trie_half _ half2). Qed.
Print Assumptions C72_trie_alone.
Theorem C72_trie_inplace_alone : inp_beside (@same_alone).
Proof. exact (inp_half _ half2). Qed.
Print Assumptions C72_trie_inplace_alone.
Theorem C72_tree_alone : tree_beside (@same_alone).
Proof. exact (tree_half _ half2). Qed.
Print Assumptions C72_tree_alone.

(** The premises can be met: the histories of the other examples, beside words of
    others, one of them not aligned, one next to an object, and a block. *)
Example C71_list_example :
  list_start ex_om ex_K [ex_l1; ex_l2] ex_t ex_live ex_m /\
  allowed (lpre ex_om ex_K) lpost (lstate0 ex_om [ex_l1; ex_l2] ex_live) ex_list_client /\
  every llooks ex_list_client /\ words_aligned ex_m /\ foreign (list_to_map far) (list_to_map far_blocks) ex_m.
Proof. exact (conj ex_list_start (conj ex_list_allowed (conj ex_list_looks (conj ex_m_aligned ex_m_foreign)))). Qed.
Example C72_list_example :
  left_alone (run (lstep 8 ex_t) tt ex_list_client (beside (list_to_map far) (list_to_map far_blocks) ex_m)).
Proof. exact ex_list_completes. Qed.
Example C72_table_example : Forall (fun T =>
  left_alone (run (tstep T 8 ex_t) None ex_table_client (beside (list_to_map far) (list_to_map far_blocks) ex_m)))
  [hashtable_table; hashdyn_table; hashlin_table].
Proof. exact ex_tables_complete. Qed.
Example C72_trie_example :
  left_alone (run (TrieSpec.xstep 10 ExamplesTrie.ex_tb) None ExamplesTrie.ex_trie_client
    (beside (list_to_map far) (list_to_map far_blocks) ExamplesTrie.ex_trie_m)).
Proof. exact ex_trie_completes. Qed.
(** The case that C72 leaves out: malloc would give the block where others are. *)
Example C72_refused_example :
  run (tstep hashtable_table 8 ex_t) None ex_table_client (beside {[8200 := U]} ∅ ex_m) = Env 128.
Proof. exact ex_table_refused. Qed.
Example C71_table_example :
  table_start ex_om ex_K ex_t ex_live ex_m /\
  allowed (tpre ex_om ex_K) tpost (tstate0 ex_om ex_live) ex_table_client /\
  every tlooks ex_table_client /\ words_aligned ex_m /\ foreign (list_to_map far) (list_to_map far_blocks) ex_m.
Proof. exact (conj ex_table_start (conj ex_table_allowed (conj ex_table_looks (conj ex_m_aligned ex_m_foreign)))). Qed.
Example C71_tree_example :
  TreeSpec.tree_start ex_om ex_K ex_t ex_live ex_m /\
  allowed (TreeSpec.trpre ex_om ex_K ExamplesTree.ex_D) TreeSpec.trpost (TreeSpec.trstate0 ex_om ex_live) ExamplesTree.ex_tree_client /\
  every trlooks ExamplesTree.ex_tree_client /\ words_aligned ex_m /\
  foreign (list_to_map far) (list_to_map far_blocks) ex_m.
Proof.
  exact (conj ExamplesTree.ex_tree_start (conj ExamplesTree.ex_tree_allowed (conj ex_tree_looks
    (conj ex_m_aligned ex_m_foreign)))).
Qed.
Example C71_array_example :
  heap_live exa_m exa_live /\ allowed (apre array_a) (apost array_a) (astate0 exa_live) (exa_client 4200) /\
  allowed ppre ppost (pstate0 exa_live) ExamplesAlloc.exp_client /\
  words_aligned exa_m /\ foreign (list_to_map far) (list_to_map far_blocks) exa_m.
Proof. exact (conj exa_heap (conj exa_allowed (conj ExamplesAlloc.exp_allowed (conj exa_aligned exa_foreign)))). Qed.
Example C71_trie_example :
  trie_start ex_om ExamplesTrie.ex_tb ex_live ExamplesTrie.ex_trie_m /\
  allowed xpre xpost (xstate0 ex_om ex_live) ExamplesTrie.ex_trie_client /\
  words_aligned ExamplesTrie.ex_trie_m /\ foreign (list_to_map far) (list_to_map far_blocks) ExamplesTrie.ex_trie_m.
Proof.
  exact (conj ExamplesTrie.ex_trie_start (conj ExamplesTrie.ex_trie_allowed (conj ex_trie_aligned ex_trie_foreign))).
Qed.
Example C71_trie_inplace_example :
  inp_start ExamplesInp.iex_om ExamplesTrie.ex_tb ExamplesInp.iex_m /\
  allowed ipre ipost (istate0 ExamplesInp.iex_om) (prog_of_list ExamplesInp.iex_ops) /\
  words_aligned ExamplesInp.iex_m /\ foreign (list_to_map far) (list_to_map far_blocks) ExamplesInp.iex_m.
Proof. exact (conj ExamplesInp.iex_start (conj ExamplesInp.iex_allowed (conj iex_aligned iex_foreign))). Qed.
(** A log says what the run is, and the log of [tommy_list_insert_first]. *)
Example C71_log_example : forall l p m m', list_insert_first l p m = Ok tt m' ->
  logged (list_insert_first l p) m [AWord (p + 8); AWord p; AWord l] (Ok tt m').
Proof. exact insert_first_log. Qed.
Example C71_log_sound : forall A (c : M A) m l r, logged c m l r -> c m = r.
Proof. exact logged_sound. Qed.
