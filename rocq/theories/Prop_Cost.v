(** * Properties C73 to C79: how many memory accesses the operations make. *)
From Verif Require Import Tree InpTrie HashTbl HashDyn HashLin TreeProps RunAll CostSort CostTree CostTable CostTables CostLinAmort Array CostArray ExamplesArray ExamplesAccess ExamplesCall ExamplesTree ExamplesTable ExamplesCost.
Global Open Scope Z_scope.

(** [at_most n c]: in every memory, whatever happens, [c] accesses the memory at
    most [n] times (the accesses inside malloc, free and the client's callbacks are
    not counted).  The operations of lists do not depend on the length, but for
    count and foreach. *)
Theorem C73_list_accesses :
  (forall l, at_most 1 (list_head l)) /\ (forall l, at_most 2 (list_tail l)) /\
  (forall l p d, at_most 8 (list_insert_head l p d)) /\ (forall l p d, at_most 8 (list_insert_tail l p d)) /\
  (forall l p, at_most 8 (list_remove_existing l p)) /\ (forall a b, at_most 7 (list_concat a b)) /\
  (forall l, at_most 1 (list_empty l)).
Proof. exact (conj am_head (conj am_tail (conj am_insert_head (conj am_insert_tail (conj am_remove (conj am_concat am_empty)))))). Qed.
Print Assumptions C73_list_accesses.
(** [n] is the number of elements: with the fuel [n] the loops end (C07). *)
Theorem C73_list_walk_accesses :
  (forall n l, at_most (1 + n) (list_count n l)) /\
  (forall n l f, (forall d, at_most 0 (f d)) -> at_most (1 + 2 * n) (list_foreach n l f)).
Proof. exact (conj am_count am_foreach). Qed.
Print Assumptions C73_list_walk_accesses.

(** The fixed hashtable, and the bucket of the others.  [n] is the length of the
    bucket: a search looks at three words of each of its elements. *)
Theorem C73_hashtable_accesses :
  (forall t p d h, at_most 9 (hashtable_insert t p d h)) /\
  (forall t p, at_most 10 (hashtable_remove_existing t p)) /\
  (forall t h, at_most 1 (hashtable_bucket t h)) /\ (forall t h, at_most 1 (hashdyn_bucket t h)) /\
  (forall t h, at_most 1 (hashlin_bucket t h)) /\
  (forall n t f a h, (forall d, at_most 0 (f a d)) -> at_most (1 + 3 * n) (hashtable_search n t f a h)) /\
  (forall n t f a h, (forall d, at_most 0 (f a d)) -> at_most (1 + 3 * n) (hashdyn_search n t f a h)) /\
  (forall n t f a h, (forall d, at_most 0 (f a d)) -> at_most (1 + 3 * n) (hashlin_search n t f a h)) /\
  (forall n t f a h, (forall d, at_most 0 (f a d)) -> at_most (10 + 3 * n) (hashtable_remove n t f a h)).
Proof.
  exact (conj am_ht_insert (conj am_ht_remove_existing (conj am_ht_bucket (conj am_hd_bucket (conj am_hl_bucket
    (conj am_ht_search (conj am_hd_search (conj am_hl_search am_ht_remove)))))))).
Qed.
Print Assumptions C73_hashtable_accesses.

(** Arrays: at most one access besides that of the element. *)
Theorem C73_array_accesses :
  (forall t i, at_most 0 (array_ref t i)) /\ (forall t i, at_most 1 (array_get t i)) /\
  (forall t i v, at_most 1 (array_set t i v)) /\ (forall t i, at_most 0 (arrayof_ref t i)) /\
  (forall t i, at_most 1 (arrayblk_ref t i)) /\ (forall t i, at_most 2 (arrayblk_get t i)) /\
  (forall t i v, at_most 2 (arrayblk_set t i v)) /\ (forall t i, at_most 1 (arrayblkof_ref t i)).
Proof.
  exact (conj am_array_ref (conj am_array_get (conj am_array_set (conj am_arrayof_ref (conj am_arrayblk_ref
    (conj am_arrayblk_get (conj am_arrayblk_set am_arrayblkof_ref))))))).
Qed.
Print Assumptions C73_array_accesses.

(** The allocator takes a block from its list with one access, gives it back with
    one, and makes one for each block when it fills a segment. *)
Theorem C73_allocator_accesses :
  (forall t, al_free_block t <> null -> at_most 1 (allocator_alloc t)) /\
  (forall t p, at_most 1 (allocator_free t p)) /\
  (forall t, 0 < al_block_size t -> 0 < al_align_size t -> 8 + al_align_size t + al_block_size t < 2 ^ 64 ->
    at_most (2 + Z.to_nat (Z.max ALLOCATOR_BLOCK_SIZE (8 + al_align_size t + al_block_size t) / al_block_size t))
      (allocator_alloc t)).
Proof. exact (conj am_alloc_list (conj am_free_block am_alloc)). Qed.
Print Assumptions C73_allocator_accesses.

(** The tries, with the fuel that suffices for every history (C59): 10 and 14.
    The allocator of the trie has blocks of 64 bytes at multiples of 64. *)
Theorem C73_trie_accesses :
  (forall t k, at_most 13 (trie_search 10 t k)) /\ (forall t k, at_most 12 (trie_bucket 10 t k)) /\
  (forall t a p d k, al_block_size a = 64 -> al_align_size a = 64 -> at_most 833 (trie_insert 10 t a p d k)) /\
  (forall t a k, at_most 142 (trie_remove 10 t a k)) /\ (forall t a p, at_most 143 (trie_remove_existing 10 t a p)).
Proof.
  exact (conj (am_trie_search 10) (conj (am_trie_bucket 10) (conj am_trie_insert10 (conj (am_trie_remove 10) (am_trie_remove_existing 10))))).
Qed.
Print Assumptions C73_trie_accesses.
Theorem C73_trie_inplace_accesses :
  (forall t k, at_most 32 (inp_search 14 t k)) /\ (forall t k, at_most 31 (inp_bucket_of 14 t k)) /\
  (forall t p d k, at_most 42 (inp_insert 14 t p d k)) /\
  (forall t k, at_most 124 (inp_remove 14 t k)) /\ (forall t p, at_most 125 (inp_remove_existing 14 t p)).
Proof.
  exact (conj (am_inp_search 14) (conj (am_inp_bucket 14) (conj (am_inp_insert 14) (conj (am_inp_remove 14) (am_inp_remove_existing 14))))).
Qed.
Print Assumptions C73_trie_inplace_accesses.

(** The tree: two words per level in a search ([n] is the depth, C37). *)
Theorem C73_tree_search_accesses : forall n t d, (forall x, at_most 0 (tr_cmp t d x)) ->
  at_most (1 + 2 * n) (tree_search n t d).
Proof. exact am_tree_search. Qed.
Print Assumptions C73_tree_search_accesses.

(** ** C74: sort and visits *)

(** Sorting [N] elements makes at most 8 N log2(N) + 9 N + 6 accesses, whatever the
    comparison function answers (the bound on its calls is C06). *)
Theorem C74_sort_accesses : forall m K l t xs f g,
  list_rep m l xs -> m !! t = Some (Tape []) ->
  separate K (t :: l :: (xs.*1 ≫= node_cells 4)) m ->
  (forall log a b, a ∈ xs.*2 -> b ∈ xs.*2 -> reads K (f log) (g log) a b) ->
  let N := Z.of_nat (length xs) in
  exists log, logged (list_sort (length xs) l (tape_cmp t f)) m log (list_sort (length xs) l (tape_cmp t f) m) /\
    Z.of_nat (length log) <= 8 * N * Z.log2_up N + 9 * N + 6.
Proof. exact sort_accesses. Qed.
Print Assumptions C74_sort_accesses.
(** A visit of a hashtable accesses each bucket once and each element twice, that
    of a list each element twice, that of a tree three times. *)
Theorem C74_visit_accesses :
  (forall fuel l t, visit_cost 1 2 t (list_foreach fuel l (tape_push t))) /\
  (forall fuel tb t, 0 <= ht_bucket_max tb -> visit_cost (ht_bucket_max tb) 2 t (hashtable_foreach fuel tb (tape_push t))) /\
  (forall fuel tb t, 0 <= hd_bucket_max tb -> visit_cost (hd_bucket_max tb) 2 t (hashdyn_foreach fuel tb (tape_push t))) /\
  (forall fuel tb t, 0 <= hl_low_max tb + hl_split tb < 2 ^ 64 ->
    visit_cost (hl_low_max tb + hl_split tb) 2 t (hashlin_foreach fuel tb (tape_push t))) /\
  (forall fuel tr t, visit_cost 0 3 t (tree_foreach fuel tr (tape_push t))).
Proof. exact (conj list_visit (conj hashtable_visit (conj hashdyn_visit (conj hashlin_visit tree_visit)))). Qed.
Print Assumptions C74_visit_accesses.

(** The premises of C74 can be met. *)
Example C74_rep_example :
  list_rep ex_m2 ex_l1 ex_xs2 /\ ex_m2 !! ex_t = Some (Tape []) /\
  separate ex_K (ex_t :: ex_l1 :: (ex_xs2.*1 ≫= node_cells 4)) ex_m2 /\
  (forall a b, a ∈ ex_xs2.*2 -> b ∈ ex_xs2.*2 -> reads ex_K (ex_kcmp 4000) (ex_cmp 4000) a b) /\
  total_preorder (ex_cmp 4000).
Proof. exact ex_rep. Qed.
Example C74_visit_example : exists m',
  list_foreach 3 ex_l1 (tape_push ex_t) ex_m2 = Ok tt m' /\ m' !! ex_t = Some (Tape ex_xs2.*2).
Proof. exact ex_visit. Qed.

(** The premises can be met: a comparison that the client's tape records, and the
    allocator that a trie is given. *)
Example C73_cmp_example : forall t f a d, at_most 0 (tape_cmp t f a d).
Proof. exact am_tape_cmp. Qed.
Example C73_allocator_example :
  al_block_size (allocator_init TRIE_BLOCK_SIZE TRIE_BLOCK_SIZE) = 64 /\
  al_align_size (allocator_init TRIE_BLOCK_SIZE TRIE_BLOCK_SIZE) = 64.
Proof. exact (conj eq_refl eq_refl). Qed.
(** A bound that is met: the accesses of [tommy_list_insert_first]. *)
Example C73_exact_example : forall l p m m', list_insert_first l p m = Ok tt m' ->
  logged (list_insert_first l p) m [AWord (p + 8); AWord p; AWord l] (Ok tt m').
Proof. exact insert_first_log. Qed.

(** ** C75: the tree *)

(** An update makes at most 19 accesses for each call of tommy_tree_balance and 7
    more.  [tree_insert_w] and the others also return the number of these calls (C37). *)
Theorem C75_update_accesses : forall fuel st, (forall a b, at_most 0 (tr_cmp st a b)) ->
  (forall p d m v m', tree_insert fuel st p d m = Ok v m' -> exists x log, tree_insert_w fuel st p d m = Ok (v, x) m' /\
    logged (tree_insert fuel st p d) m log (Ok v m') /\ Z.of_nat (length log) <= 7 + 19 * x) /\
  (forall d m v m', tree_remove fuel st d m = Ok v m' -> exists x log, tree_remove_w fuel st d m = Ok (v, x) m' /\
    logged (tree_remove fuel st d) m log (Ok v m') /\ Z.of_nat (length log) <= 4 + 19 * x) /\
  (forall p m v m', tree_remove_existing fuel st p m = Ok v m' -> exists x log, tree_remove_existing_w fuel st p m = Ok (v, x) m' /\
    logged (tree_remove_existing fuel st p) m log (Ok v m') /\ Z.of_nat (length log) <= 5 + 19 * x).
Proof. exact tree_update_accesses. Qed.
Print Assumptions C75_update_accesses.
(** In every history, whatever the operations [tr] before it, the next operation [o]
    makes a number of accesses within [tree_budget]: O(log N) for search and
    insertion in a tree of [N] elements, O(log^2 N) for removal (see C37), O(N) for a
    visit. *)
Theorem C75_history_accesses : forall om K D t live m fuel c n cs tr m1 cs' o a m2,
  tree_start om K t live m -> (size om + 4 <= fuel)%nat ->
  allowed (trpre om K D) trpost (trstate0 om live) c ->
  run (trstep fuel t) None (trunc n c) m = Ok (cs, tr) m1 ->
  run (trstep fuel t) None (trunc (S n) c) m = Ok (cs', tr ++ [(o, a)]) m2 ->
  exists log k, logged (trstep fuel t cs o) m1 log (Ok (cs', a) m2) /\
    log_bound k (length (tset tr.*1).2) /\
    Z.of_nat (length log) <= tree_budget (Z.of_nat (length (tset tr.*1).2)) (Z.of_nat k) o.
Proof. exact tree_step_accesses. Qed.
Print Assumptions C75_history_accesses.
Example C75_start_example : tree_start ex_om ex_K ex_t ex_live ex_m.
Proof. exact ex_tree_start. Qed.
Example C75_client_example : allowed (trpre ex_om ex_K ex_D) trpost (trstate0 ex_om ex_live) ex_tree_client.
Proof. exact ex_tree_allowed. Qed.
(** an insertion with two rotations *)
Example C75_step_example : exists cs tr m1 cs' m2,
  run (trstep 8 ex_t) None (trunc 3 ex_tree_client) ex_m = Ok (cs, tr) m1 /\
  run (trstep 8 ex_t) None (trunc 4 ex_tree_client) ex_m =
    Ok (cs', tr ++ [(TrInsert 2008 2000, TrFound 2000 [2000; 3000; 2000; 1000])]) m2.
Proof. exact ex_tree_fourth. Qed.

(** ** C76: the dynamic hashtable *)

(** In every history, whatever the operations [tr] before it, the next operation [o]
    makes a constant number of accesses, 3 for each element in the bucket that it
    searches, and 9 for each bucket and element that a resize goes through.  The
    comparisons of the client may look at the memory but not change it. *)
Theorem C76_operation_accesses : forall om K t live m fuel n c cs tr m1 cs' o a m2,
  table_start om K t live m -> (size om <= fuel)%nat -> allowed (tpre om K) tpost (tstate0 om live) c ->
  every tlooks c -> no_visit o ->
  run (tstep hashdyn_table fuel t) None (trunc n c) m = Ok (cs, tr) m1 ->
  run (tstep hashdyn_table fuel t) None (trunc (S n) c) m = Ok (cs', tr ++ [(o, a)]) m2 ->
  exists log, logged (tstep hashdyn_table fuel t cs o) m1 log (Ok (cs', a) m2) /\
    hashdyn_within om live tr cs cs' o (Z.of_nat (length log)).
Proof. exact hd_step_accesses. Qed.
Print Assumptions C76_operation_accesses.
(** Resizes included, a whole history of insertions and removals by node makes at most
    64 accesses per operation. *)
Theorem C76_amortised_accesses : forall om K t live m fuel c,
  table_start om K t live m -> (size om <= fuel)%nat -> allowed (tpre om K) tpost (tstate0 om live) c ->
  every by_node c ->
  safe (run (tstep hashdyn_table fuel t) None c m) (fun r m' =>
    exists log, logged (run (tstep hashdyn_table fuel t) None c) m log (Ok r m') /\ (length log <= 64 * length r.2)%nat).
Proof. exact hd_history_accesses. Qed.
Print Assumptions C76_amortised_accesses.
Example C76_start_example : table_start big_om ∅ big_t ∅ big_m /\ size big_om = 65%nat.
Proof. exact (conj big_start big_size). Qed.
Example C76_client_example : allowed (tpre big_om ∅) tpost (tstate0 big_om ∅) big_client /\ every tlooks big_client /\ every by_node big_client.
Proof. exact (conj big_allowed (conj big_looks big_by_node)). Qed.
(** the eighth insertion doubles the buckets, and goes through 16 buckets and 8 elements *)
Example C76_step_example : exists st tr m1 st' m2 p d h,
  run (tstep hashdyn_table 65 big_t) None (trunc 8 big_client) big_m = Ok (Some st, tr) m1 /\
  run (tstep hashdyn_table 65 big_t) None (trunc 9 big_client) big_m = Ok (Some st', tr ++ [(TInsert p d h, TONone)]) m2 /\
  hd_bucket_max st = 16 /\ hd_bucket_max st' = 32 /\ hd_work st st' = 24.
Proof. exact ex_grow_step. Qed.
(** a history of 176 operations, with eight resizes (see C13), that runs to its end *)
Example C76_history_example : exists r m',
  run (tstep hashdyn_table 65 big_t) None big_client big_m = Ok r m' /\ length r.2 = 176%nat.
Proof. exact big_run_hd. Qed.

(** ** C77: the fixed and the linear hashtable *)

(** In every history, the next operation of the fixed hashtable makes a constant
    number of accesses, and 3 for each element in the bucket that it searches; init
    clears every bucket. *)
Theorem C77_hashtable_operation_accesses : forall om K t live m fuel n c cs tr m1 cs' o a m2,
  table_start om K t live m -> (size om <= fuel)%nat -> allowed (tpre om K) tpost (tstate0 om live) c ->
  every tlooks c -> no_visit o ->
  run (tstep hashtable_table fuel t) None (trunc n c) m = Ok (cs, tr) m1 ->
  run (tstep hashtable_table fuel t) None (trunc (S n) c) m = Ok (cs', tr ++ [(o, a)]) m2 ->
  exists log, logged (tstep hashtable_table fuel t cs o) m1 log (Ok (cs', a) m2) /\
    table_within hashtable_table (ht_buckets cs') 9 10 om live tr cs o (Z.of_nat (length log)).
Proof. exact ht_step_accesses. Qed.
Print Assumptions C77_hashtable_operation_accesses.
(** The same for the linear hashtable, and 7 for each pair of buckets joined by a
    removal.  An insertion that splits no bucket makes at most 9 accesses; one that
    splits some makes 3 for each, and 9 for each element of theirs, which may be all. *)
Theorem C77_hashlin_operation_accesses : forall om K t live m fuel n c cs tr m1 cs' o a m2,
  table_start om K t live m -> (size om <= fuel)%nat -> allowed (tpre om K) tpost (tstate0 om live) c ->
  every tlooks c -> no_visit o ->
  run (tstep hashlin_table fuel t) None (trunc n c) m = Ok (cs, tr) m1 ->
  run (tstep hashlin_table fuel t) None (trunc (S n) c) m = Ok (cs', tr ++ [(o, a)]) m2 ->
  exists log, logged (tstep hashlin_table fuel t cs o) m1 log (Ok (cs', a) m2) /\
    table_within hashlin_table 0 (hl_insert_within cs cs') (hl_remove_within cs cs') om live tr cs o (Z.of_nat (length log)).
Proof. exact hl_step_accesses. Qed.
Print Assumptions C77_hashlin_operation_accesses.
Example C77_start_example : table_start ex_om ex_K ex_t ex_live ex_m /\ size ex_om = 4%nat /\
  allowed (tpre ex_om ex_K) tpost (tstate0 ex_om ex_live) ex_table_client /\ every tlooks ex_table_client.
Proof. exact (conj ex_table_start (conj ex_om_size (conj ex_table_allowed ex_table_looks))). Qed.
(** a removal from a bucket of three elements, one of another hash *)
Example C77_remove_example : forall T, T = hashtable_table \/ T = hashlin_table -> exists st tr m1 st' m2 es,
  run (tstep T 4 ex_t) None (trunc 12 ex_table_client) ex_m = Ok (Some st, tr) m1 /\
  run (tstep T 4 ex_t) None (trunc 13 ex_table_client) ex_m =
    Ok (Some st', tr ++ [(TRemove ex_kany ex_any 9 5, TOFound 1000 [9; 1000])]) m2 /\
  es = [Ent 1008 1000 5; Ent 2008 2000 5; Ent 3008 3000 (2 ^ 63 + 5); Ent 4008 4000 6] /\ in_bucket T st es 5 = 3.
Proof. exact ex_remove_step. Qed.
(** an insertion (of the client of C76) that splits 56 buckets *)
Example C77_split_example : exists st tr m1 st' m2 p d h,
  run (tstep hashlin_table 65 big_t) None (trunc 175 big_client) big_m = Ok (Some st, tr) m1 /\
  run (tstep hashlin_table 65 big_t) None (trunc 176 big_client) big_m = Ok (Some st', tr ++ [(TInsert p d h, TONone)]) m2 /\
  op_work (Some st) (Some st') = 56 /\ hl_count st' = 65.
Proof. exact ex_split_step. Qed.

(** ** C78: whole histories of the linear and of the dynamic hashtable *)

(** Splits and joins included, a whole history of insertions and removals by node makes
    at most 102 accesses per operation. *)
Theorem C78_amortised_accesses : forall om K t live m fuel c,
  table_start om K t live m -> (size om <= fuel)%nat -> allowed (tpre om K) tpost (tstate0 om live) c ->
  every by_node c ->
  safe (run (tstep hashlin_table fuel t) None c m) (fun r m' =>
    exists log, logged (run (tstep hashlin_table fuel t) None c) m log (Ok r m') /\ (length log <= 102 * length r.2)%nat).
Proof. exact hl_history_accesses. Qed.
Print Assumptions C78_amortised_accesses.
(** the client of C76: it grows, shrinks, and grows again before the shrinking is over (see C17) *)
Example C78_start_example : table_start big_om ∅ big_t ∅ big_m /\ size big_om = 65%nat /\
  allowed (tpre big_om ∅) tpost (tstate0 big_om ∅) big_client /\ every by_node big_client.
Proof. exact (conj big_start (conj big_size (conj big_allowed big_by_node))). Qed.
Example C78_history_example : exists r m',
  run (tstep hashlin_table 65 big_t) None big_client big_m = Ok r m' /\ length r.2 = 176%nat.
Proof. exact big_run_hl. Qed.
(** With searches, removals by search and reading of buckets, 3 more for each element in
    the buckets that they search ([n] in all).  The same for the dynamic hashtable. *)
Theorem C78_hashlin_searching_accesses : forall om K t live m fuel c,
  table_start om K t live m -> (size om <= fuel)%nat -> allowed (tpre om K) tpost (tstate0 om live) c ->
  every tlooks c -> every no_visit c ->
  safe (run_all (tstep hashlin_table fuel t) None c m) (fun l m' =>
    exists log n, logged (run (tstep hashlin_table fuel t) None c) m log (Ok (struct_after None l, l.*1) m') /\
      walks_all hashlin_table om live [] None l n /\ Z.of_nat (length log) <= 102 * Z.of_nat (length l) + 3 * n).
Proof. exact hl_history_walks. Qed.
Print Assumptions C78_hashlin_searching_accesses.
Theorem C78_hashdyn_searching_accesses : forall om K t live m fuel c,
  table_start om K t live m -> (size om <= fuel)%nat -> allowed (tpre om K) tpost (tstate0 om live) c ->
  every tlooks c -> every no_visit c ->
  safe (run_all (tstep hashdyn_table fuel t) None c m) (fun l m' =>
    exists log n, logged (run (tstep hashdyn_table fuel t) None c) m log (Ok (struct_after None l, l.*1) m') /\
      walks_all hashdyn_table om live [] None l n /\ Z.of_nat (length log) <= 64 * Z.of_nat (length l) + 3 * n).
Proof. exact hd_history_walks. Qed.
Print Assumptions C78_hashdyn_searching_accesses.
(** four insertions, three searches and the reading of a bucket *)
Example C78_searching_example : table_start ex_om ex_K ex_t ex_live ex_m /\ size ex_om = 4%nat /\
  allowed (tpre ex_om ex_K) tpost (tstate0 ex_om ex_live) ex_search_client /\
  every tlooks ex_search_client /\ every no_visit ex_search_client.
Proof. exact (conj ex_table_start (conj ex_om_size (conj ex_search_allowed ex_search_looks))). Qed.
Example C78_searching_run_example : forall T, T = hashdyn_table \/ T = hashlin_table -> exists l m' st,
  run_all (tstep T 4 ex_t) None ex_search_client ex_m = Ok l m' /\ length l = 10%nat /\ struct_after None l = Some st /\
  in_bucket T st [Ent 1008 1000 5; Ent 2008 2000 5; Ent 3008 3000 (2 ^ 63 + 5); Ent 4008 4000 6] 5 = 3.
Proof. exact ex_search_run. Qed.

(** ** C79: the growth of the arrays *)

(** Growing an array does not access the elements it has, nor the new ones (they
    come zeroed from calloc): no access at all, and one for each new block if it is
    blocked, the store in the table of blocks.  So an insertion makes one access, and
    the release of the memory one for each block. *)
Theorem C79_growth_accesses :
  (forall t n, at_most 0 (array_grow t n)) /\ (forall t e, at_most 1 (array_insert t e)) /\
  (forall t, at_most 0 (array_done t)) /\
  (forall t n, at_most 0 (arrayof_grow t n)) /\ (forall t, at_most 0 (arrayof_done t)) /\
  (forall t n, 0 <= n -> at_most (Z.to_nat (blocks_for n - array_size (ab_block t))) (arrayblk_grow t n)) /\
  (forall t, at_most (Z.to_nat (array_size (ab_block t))) (arrayblk_done t)) /\
  (forall t n, 0 <= n -> at_most (Z.to_nat (blocks_for n - array_size (abo_block t))) (arrayblkof_grow t n)) /\
  (forall t, at_most (Z.to_nat (array_size (abo_block t))) (arrayblkof_done t)).
Proof.
  exact (conj am_grow (conj am_array_insert (conj am_array_done (conj am_arrayof_grow (conj am_arrayof_done
    (conj am_blk_grow (conj am_blk_done (conj am_blkof_grow am_blkof_done)))))))).
Qed.
Print Assumptions C79_growth_accesses.

(** Filling an array with N insertions makes at most N accesses; a blocked one at most
    2 N and one for each 4096 elements. *)
Theorem C79_filling_accesses : forall es, Z.of_nat (length es) < 2 ^ 64 - 4095 ->
  at_most (length es) (array_of es) /\
  at_most (2 * length es + Z.to_nat (blocks_for (Z.of_nat (length es)))) (arrayblk_of es).
Proof. exact (fun es H => conj (am_array_of es) (am_blk_of es H)). Qed.
Print Assumptions C79_filling_accesses.

(** 200 insertions succeed; the segments of the array double twice. *)
Example C79_array_example :
  exists t m', array_of (replicate 200 7) exa_m = Ok t m' /\ (array_size t, ar_bucket_max t) = (200, 256).
Proof. exact ex_array_of. Qed.
Example C79_arrayblk_example : exists t m', arrayblk_of (replicate 200 7) exa_m = Ok t m' /\
  (arrayblk_size t, array_size (ab_block t)) = (200, 1).
Proof. exact ex_arrayblk_of. Qed.
