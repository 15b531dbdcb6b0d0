(** * Property C65: searches, counts and visits write nothing. *)
From Verif Require Import ReadOnly.
Global Open Scope Z_scope.

(** [only_reads c]: [c] is built from loads and effect-free steps alone, so that
    it stores nothing, whatever the memory, valid or not.  Several searches and
    visits of one container at the same time do not disturb each other.  The
    functions of the client that are called must not write either. *)
Theorem C65_only_reads_keeps_memory : forall A (c : M A), only_reads c ->
  forall m v m', c m = Ok v m' -> m' = m.
Proof. exact only_reads_kept. Qed.
Print Assumptions C65_only_reads_keeps_memory.

Theorem C65_list_reads : forall fuel l func func_arg arg,
  (forall d, only_reads (func d)) -> (forall a d, only_reads (func_arg a d)) ->
  only_reads (list_head l) /\ only_reads (list_tail l) /\ only_reads (list_empty l) /\
  only_reads (list_count fuel l) /\ only_reads (list_foreach fuel l func) /\
  only_reads (list_foreach_arg fuel l func_arg arg).
Proof. exact list_reads. Qed.
Print Assumptions C65_list_reads.

Theorem C65_hashtable_reads : forall fuel t cmp arg hash func func_arg,
  (forall a b, only_reads (cmp a b)) -> (forall d, only_reads (func d)) ->
  (forall a d, only_reads (func_arg a d)) ->
  only_reads (hashtable_bucket t hash) /\ only_reads (hashtable_search fuel t cmp arg hash) /\
  only_reads (hashtable_foreach fuel t func) /\ only_reads (hashtable_foreach_arg fuel t func_arg arg).
Proof. exact hashtable_reads. Qed.
Print Assumptions C65_hashtable_reads.

Theorem C65_hashdyn_reads : forall fuel t cmp arg hash func func_arg,
  (forall a b, only_reads (cmp a b)) -> (forall d, only_reads (func d)) ->
  (forall a d, only_reads (func_arg a d)) ->
  only_reads (hashdyn_bucket t hash) /\ only_reads (hashdyn_search fuel t cmp arg hash) /\
  only_reads (hashdyn_foreach fuel t func) /\ only_reads (hashdyn_foreach_arg fuel t func_arg arg).
Proof. exact hashdyn_reads. Qed.
Print Assumptions C65_hashdyn_reads.

Theorem C65_hashlin_reads : forall fuel t cmp arg hash func func_arg,
  (forall a b, only_reads (cmp a b)) -> (forall d, only_reads (func d)) ->
  (forall a d, only_reads (func_arg a d)) ->
  only_reads (hashlin_bucket t hash) /\ only_reads (hashlin_search fuel t cmp arg hash) /\
  only_reads (hashlin_foreach fuel t func) /\ only_reads (hashlin_foreach_arg fuel t func_arg arg).
Proof. exact hashlin_reads. Qed.
Print Assumptions C65_hashlin_reads.

Theorem C65_trie_reads : forall fuel t key,
  only_reads (trie_bucket fuel t key) /\ only_reads (trie_search fuel t key).
Proof. exact trie_reads. Qed.
Print Assumptions C65_trie_reads.

Theorem C65_inplace_trie_reads : forall fuel t key,
  only_reads (inp_bucket_of fuel t key) /\ only_reads (inp_search fuel t key).
Proof. exact inp_reads. Qed.
Print Assumptions C65_inplace_trie_reads.

Theorem C65_tree_reads : forall fuel t cmp arg data func func_arg,
  (forall a b, only_reads (tr_cmp t a b)) -> (forall a b, only_reads (cmp a b)) ->
  (forall d, only_reads (func d)) -> (forall a d, only_reads (func_arg a d)) ->
  only_reads (tree_search fuel t data) /\ only_reads (tree_search_compare fuel t cmp arg) /\
  only_reads (tree_foreach fuel t func) /\ only_reads (tree_foreach_arg fuel t func_arg arg).
Proof. exact tree_reads. Qed.
Print Assumptions C65_tree_reads.

Theorem C65_array_reads : forall t u b bo pos,
  only_reads (array_get t pos) /\ only_reads (array_ref t pos) /\ only_reads (arrayof_ref u pos) /\
  only_reads (arrayblk_get b pos) /\ only_reads (arrayblk_ref b pos) /\ only_reads (arrayblkof_ref bo pos).
Proof. exact array_reads. Qed.
Print Assumptions C65_array_reads.

Theorem C65_hash_reads : forall x86 fuel init key len,
  only_reads (hash_u32 x86 fuel init key len) /\ only_reads (hash_u64 x86 fuel init key len) /\
  only_reads (strhash_u32 x86 fuel init key).
Proof. exact hash_reads. Qed.
Print Assumptions C65_hash_reads.

(** A comparison and a callback that meet the hypotheses, and calls that
    return.  Sizes and memory usages are not in the list: in the model they are
    functions of the struct and cannot write; nor can the searches write the
    struct, which they do not return. *)
Example C65_callback_example : forall d, only_reads (ro_visit d).
Proof. exact ro_visit_reads. Qed.
Example C65_compare_example : forall a d, only_reads (ro_cmp a d).
Proof. exact ro_cmp_reads. Qed.
Example C65_run_example :
  (match list_foreach 10 800 ro_visit ro_mem with Ok _ _ => True | _ => False end) /\
  (match list_count 10 800 ro_mem with Ok n _ => n = 2 | _ => False end) /\
  (match hashtable_search 10 (HashTable 800 1 0 2) ro_cmp 42 7 ro_mem with Ok d _ => d = 3000 | _ => False end).
Proof. exact ro_runs. Qed.
