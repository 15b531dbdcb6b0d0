(** * Properties C34 to C39: the tree of tommytree.h and tommytree.c. *)
From Verif Require Import ExamplesTree.
Global Open Scope Z_scope.

(** ** C34: the tree is a sorted set *)

(** Any client that respects the preconditions [trpre] gets from every
    operation the answer that the specification [trpost] asks for; the run
    terminates without undefined behaviour, for every fuel at least the number
    of nodes plus 4, and changes nothing but the client's nodes.  [tree_end]
    describes the memory at the end.  The comparison functions read the memory
    [K], any memory of the client outside of the nodes; [D] are the data that
    the comparison of the tree is defined for. *)
Theorem C34_tree_history : forall om K D t live m fuel c,
  tree_start om K t live m -> (size om + 4 <= fuel)%nat ->
  allowed (trpre om K D) trpost (trstate0 om live) c ->
  succeeds (run (trstep fuel t) None c m) (fun r m' =>
    tree_end om live r.1 r.2 m' /\ unchanged_outside (HCTL :: t :: objs_cells om) m m').
Proof. exact tree_history. Qed.
Print Assumptions C34_tree_history.
(** [tset ops] computes the elements inserted and not removed from the
    operations alone.  search finds the equal element iff there is one. *)
Theorem C34_search : after_any_tree_history (fun _ _ tr _ => forall tr0 d a tr1, tr = tr0 ++ (TrSearch d, a) :: tr1 ->
  let c := (tset tr0.*1).1 in let xs := (tset tr0.*1).2 in
  exists z calls, a = TrFound z calls /\ few_calls d xs calls /\
    ((exists q, (q, z) ∈ xs /\ c d z = 0) \/ (Forall (fun x => c d x.2 <> 0) xs /\ z = 0))).
Proof. exact tree_search_ok. Qed.
Print Assumptions C34_search.
(** insert returns the equal element if there is one ([tset] does not change
    then) and the inserted one otherwise. *)
Theorem C34_insert : after_any_tree_history (fun _ _ tr _ => forall tr0 p d a tr1, tr = tr0 ++ (TrInsert p d, a) :: tr1 ->
  let c := (tset tr0.*1).1 in let xs := (tset tr0.*1).2 in
  exists z calls, a = TrFound z calls /\ few_calls d xs calls /\
    ((exists q, (q, z) ∈ xs /\ c d z = 0) \/ (Forall (fun x => c d x.2 <> 0) xs /\ z = d))).
Proof. exact tree_insert_ok. Qed.
Print Assumptions C34_insert.
Theorem C34_remove : after_any_tree_history (fun _ _ tr _ => forall tr0 d a tr1, tr = tr0 ++ (TrRemove d, a) :: tr1 ->
  let c := (tset tr0.*1).1 in let xs := (tset tr0.*1).2 in let xs' := (tset (tr0.*1 ++ [TrRemove d])).2 in
  exists z calls, a = TrFound z calls /\ few_calls d xs calls /\
    ((exists q, (q, z) :: xs' ≡ₚ xs /\ c d z = 0) \/ (Forall (fun x => c d x.2 <> 0) xs /\ z = 0 /\ xs' = xs))).
Proof. exact tree_remove_ok. Qed.
Print Assumptions C34_remove.
Theorem C34_remove_existing : after_any_tree_history (fun _ _ tr _ => forall tr0 p a tr1, tr = tr0 ++ (TrRemoveExisting p, a) :: tr1 ->
  let xs := (tset tr0.*1).2 in let xs' := (tset (tr0.*1 ++ [TrRemoveExisting p])).2 in
  exists d calls, a = TrFound d calls /\ few_calls d xs calls /\ (p, d) :: xs' ≡ₚ xs).
Proof. exact tree_remove_existing_ok. Qed.
Print Assumptions C34_remove_existing.
(** count and memory_usage *)
Theorem C34_count : after_any_tree_history (fun _ _ tr _ => forall tr0 a tr1,
  (tr = tr0 ++ (TrCount, a) :: tr1 -> a = TrWord (Z.of_nat (length (tset tr0.*1).2))) /\
  (tr = tr0 ++ (TrUsage, a) :: tr1 -> a = TrWord (32 * Z.of_nat (length (tset tr0.*1).2)))).
Proof. exact tree_count_ok. Qed.
Print Assumptions C34_count.
(** The nodes in memory at the end of any history are a search tree of exactly
    the elements inserted and not removed. *)
Theorem C34_elements : after_any_tree_history (fun _ cs tr m' => forall st, cs = Some st ->
  exists T, tr_root st = root T /\ tree_at m' T /\ inorder T ≡ₚ (tset tr.*1).2 /\ NoDup (inorder T).*1 /\
    increasing (tset tr.*1).1 (inorder T) /\
    tr_count st = Z.of_nat (length (inorder T)) /\ log_bound (depth T) (length (inorder T)) /\ height_balanced 2 T).
Proof. exact tree_elements_ok. Qed.
Print Assumptions C34_elements.
Example C34_start_example : tree_start ex_om ex_K ex_t ex_live ex_m.
Proof. exact ex_tree_start. Qed.
Example C34_client_example : allowed (trpre ex_om ex_K ex_D) trpost (trstate0 ex_om ex_live) ex_tree_client.
Proof. exact ex_tree_allowed. Qed.
Example C34_run_example : ex_tree_answers =
  [TrNone; TrFound 3000 []; TrFound 1000 [1000; 3000]; TrFound 2000 [2000; 3000; 2000; 1000];
   TrFound 2000 [2000; 3000; 2000; 1000; 2000; 2000]; TrFound 4000 [4000; 3000];
   TrFound 2000 [2000; 3000; 2000; 1000; 2000; 2000]; TrFound 0 [2504; 3000; 2504; 1000; 2504; 2000];
   TrFound 3000 [1; 3000]; TrFound 0 [5; 3000; 5; 4000]; TrWord 4; TrWord 128;
   TrData [9; 1000; 9; 2000; 9; 3000; 9; 4000];
   TrFound 2000 [2000; 3000; 2000; 1000; 2000; 2000]; TrFound 0 [2000; 3000; 2000; 1000];
   TrFound 4000 [4000; 3000; 4000; 4000]; TrData [1000; 3000]; TrFound 4000 [4000; 3000]; TrData [1000; 3000; 4000]].
Proof. exact ex_tree_run. Qed.

(** ** C35: foreach *)

(** In any history foreach and foreach_arg call the function once per element,
    in increasing order, also if it frees the object. *)
Theorem C35_foreach : after_any_tree_history (fun _ _ tr _ => forall tr0 o a tr1, tr = tr0 ++ (o, a) :: tr1 ->
  let c := (tset tr0.*1).1 in let xs := (tset tr0.*1).2 in
  exists ys, ys ≡ₚ xs /\ increasing c ys /\
    (o = TrForeach -> a = TrData ys.*2) /\
    (forall arg, o = TrForeachArg arg -> a = TrData (y ← ys; [arg; y.2])) /\
    (o = TrForeachFree -> a = TrData ys.*2)).
Proof. exact tree_foreach_ok. Qed.
Print Assumptions C35_foreach.
(** Freeing leaves alive exactly the other blocks. *)
Theorem C35_foreach_free : after_any_tree_history (fun live _ tr m' => forall tr0 a,
  tr = tr0 ++ [(TrForeachFree, a)] -> Forall (fun x => x.1 <> TrForeachFree) tr0 ->
  heap_live m' (free_all (tset tr0.*1).2.*2 live)).
Proof. exact tree_foreach_free_ok. Qed.
Print Assumptions C35_foreach_free.
(** Any callback that leaves alone the nodes not yet visited: foreach does what
    calling it on the data in increasing order does. *)
Theorem C35_foreach_any : forall func T st fuel m,
  tree_at m T -> tr_root st = root T -> (depth T <= fuel)%nat -> spares_unvisited func (inorder T) m ->
  tree_foreach fuel st func m = each func (inorder T).*2 m.
Proof. exact tree_foreach_any. Qed.
Print Assumptions C35_foreach_any.
(** A callback that overwrites the node it is called with *)
Example C35_any_example : tree_at ex_tm ex_T /\ spares_unvisited ex_smash (inorder ex_T) ex_tm.
Proof. exact (conj ex_T_at ex_smash_spares). Qed.
Example C35_any_calls_example : ex_smash_tape = Some [1000; 2000; 3000; 4000].
Proof. exact ex_smash_calls. Qed.

(** ** C36: search with a coarser comparison *)
Theorem C36_search_compare : after_any_tree_history (fun _ _ tr _ => forall tr0 ff f k a tr1,
  tr = tr0 ++ (TrSearchCompare ff f k, a) :: tr1 ->
  let xs := (tset tr0.*1).2 in
  exists z calls, a = TrFound z calls /\ few_calls k xs calls /\
    ((exists q, (q, z) ∈ xs /\ f k z = 0) \/ (Forall (fun x => f k x.2 <> 0) xs /\ z = 0))).
Proof. exact tree_search_compare_ok. Qed.
Print Assumptions C36_search_compare.
Example C36_client_example : allowed (trpre ex_om ex_K ex_D) trpost (trstate0 ex_om ex_live) ex_tree_client.
Proof. exact ex_tree_allowed. Qed.

(** ** C37: depth *)

(** A path of a tree of n elements has at most 1.4407 log2(n + 1) + 1 nodes. *)
Theorem C37_depth : after_any_tree_history (fun _ cs tr m' => forall st, cs = Some st ->
  exists T, tr_root st = root T /\ tree_at m' T /\ inorder T ≡ₚ (tset tr.*1).2 /\ NoDup (inorder T).*1 /\
    increasing (tset tr.*1).1 (inorder T) /\
    tr_count st = Z.of_nat (length (inorder T)) /\ log_bound (depth T) (length (inorder T)) /\ height_balanced 2 T).
Proof. exact tree_elements_ok. Qed.
Print Assumptions C37_depth.
(** Every operation makes at most so many comparisons.  Searches, insertions
    and removals are the operations that answer [TrFound]. *)
Theorem C37_comparisons : after_any_tree_history (fun _ _ tr _ => forall tr0 o z calls tr1,
  tr = tr0 ++ (o, TrFound z calls) :: tr1 -> exists d, few_calls d (tset tr0.*1).2 calls).
Proof. exact tree_comparisons_ok. Qed.
Print Assumptions C37_comparisons.
(** Calls of tommy_tree_balance.  [trstep_w] is [trstep] with the number of
    calls as another result. *)
Theorem C37_count_erase : forall fuel t cs o m, trstep fuel t cs o m = (x ← trstep_w fuel t cs o; mret x.1) m.
Proof. exact trstep_erase. Qed.
Print Assumptions C37_count_erase.
(** An insertion makes O(log n) calls, but a removal O(log^2 n); the other
    operations none ([trwork]). *)
Theorem C37_work : after_any_counted_history (fun _ tr _ => forall tr0 o a n tr1, tr = tr0 ++ (o, (a, n)) :: tr1 ->
  trwork (length (tset tr0.*1).2) o n).
Proof. exact tree_work_ok. Qed.
Print Assumptions C37_work.
(** One call of tommy_tree_balance on a node whose subtrees have heights [idx l]
    and [idx r] causes a number of calls that is linear in the difference. *)
Theorem C37_balance_calls : forall m fuel p d i l r,
  tree_at m (Node p d i l r) -> NoDup (tree_cells (Node p d i l r)) -> avl l -> avl r ->
  Z.max (idx l) (idx r) < 2 ^ 62 -> 3 + Z.max (idx l) (idx r) <= Z.of_nat fuel ->
  succeeds (tree_balance_w fuel p m) (fun x _ =>
    Z.abs (idx l - idx r) + 1 <= 2 * x.2 /\ x.2 <= 16 * Z.abs (idx l - idx r) + 1).
Proof. exact tree_balance_calls_ok. Qed.
Print Assumptions C37_balance_calls.
(** The conclusion of the property, that every operation is O(log n), is false
    for removals: tommy_tree_move_right hangs one subtree below the last node
    of the other and rebalances all the way up.  Every tree of n elements that
    any history leads to has an element whose removal makes at least
    (log2(n + 1) - 3)^2 / 8 calls. *)
Theorem C37_remove_lower : forall om K D t live m fuel c,
  tree_start om K t live m -> (size om + 4 <= fuel)%nat ->
  allowed (trpre om K D) trpost (trstate0 om live) c ->
  succeeds (run (trstep fuel t) None c m) (fun r m' =>
    let xs := (tset r.2.*1).2 in let k := Z.log2 (Z.of_nat (length xs) + 1) in
    3 <= k -> exists p d, (p, d) ∈ xs /\
      succeeds (trstep_w fuel t r.1 (TrRemove d) m') (fun x _ => (k - 3) * (k - 3) <= 8 * x.2)).
Proof. exact tree_remove_long_ok. Qed.
Print Assumptions C37_remove_lower.
Example C37_client_example : allowed (trpre ex_om ex_K ex_D) trpost (trstate0 ex_om ex_live) ex_tree_client.
Proof. exact ex_tree_allowed. Qed.
Example C37_counted_client_example : allowed (trpre ex_om ex_K ex_D) (fun s o a s' => trpost s o a.1 s') (trstate0 ex_om ex_live)
  (prog_of_list (out:=trout * Z) ex_tree_ops).
Proof. exact ex_tree_allowed_n. Qed.
Example C37_counts_example : ex_tree_counts = [0; 0; 1; 2; 2; 1; 0; 0; 0; 0; 0; 0; 0; 2; 2; 1; 0; 1; 0].
Proof. exact ex_tree_counts_run. Qed.
Example C37_seven_example : tree_start ex7_om ∅ ex_t ∅ ex7_m /\
  allowed (trpre ex7_om ∅ (fun _ => true = true)) trpost (trstate0 ex7_om ∅) (prog_of_list ex7_ops) /\
  Z.log2 (Z.of_nat (length (tset ex7_ops).2) + 1) = 3.
Proof. exact (conj ex7_start (conj ex7_allowed ex7_size)). Qed.

(** ** C38: not a standard AVL tree *)

(** tommy_tree_insert gives a new leaf index 0 and not 1, so a subtree of one
    node may count as empty. *)
Theorem C38_avl_refuted : ~ after_any_tree_history (fun _ cs _ m' => forall st, cs = Some st ->
  exists T, tr_root st = root T /\ tree_at m' T /\ height_balanced 1 T).
Proof. exact tree_avl_refuted. Qed.
Print Assumptions C38_avl_refuted.
(** What holds: the heights differ by at most two. *)
Theorem C38_balanced_two : after_any_tree_history (fun _ cs tr m' => forall st, cs = Some st ->
  exists T, tr_root st = root T /\ tree_at m' T /\ inorder T ≡ₚ (tset tr.*1).2 /\ NoDup (inorder T).*1 /\
    increasing (tset tr.*1).1 (inorder T) /\
    tr_count st = Z.of_nat (length (inorder T)) /\ log_bound (depth T) (length (inorder T)) /\ height_balanced 2 T).
Proof. exact tree_elements_ok. Qed.
Print Assumptions C38_balanced_two.
Example C38_client_example : allowed (trpre ex_om ex_K ex_D) trpost (trstate0 ex_om ex_live) ex_chain.
Proof. exact ex_chain_allowed. Qed.

(** ** C39: rebalancing terminates *)

(** On a node whose two subtrees have the invariant [avl] of every reachable
    tree but any two heights, tommy_tree_balance terminates, without undefined
    behaviour and with a recursion depth of at most the greater height plus 3;
    it keeps the elements and their order. *)
Theorem C39_balance : forall m fuel p d i l r,
  tree_at m (Node p d i l r) -> NoDup (tree_cells (Node p d i l r)) -> avl l -> avl r ->
  Z.max (idx l) (idx r) < 2 ^ 62 -> 3 + Z.max (idx l) (idx r) <= Z.of_nat fuel ->
  succeeds (tree_balance fuel p m) (fun q m' => exists T', q = root T' /\ tree_at m' T' /\
    inorder T' = inorder l ++ (p, d) :: inorder r /\
    avl T' /\ Z.max (idx l) (idx r) <= idx T' <= Z.max (idx l) (idx r) + 1 /\
    unchanged_outside (tree_cells (Node p d i l r)) m m').
Proof. exact tree_balance_ok. Qed.
Print Assumptions C39_balance.
(** Every reachable tree, every operation: as C34, in particular the run does
    not run out of fuel. *)
Theorem C39_history : forall om K D t live m fuel c,
  tree_start om K t live m -> (size om + 4 <= fuel)%nat ->
  allowed (trpre om K D) trpost (trstate0 om live) c ->
  succeeds (run (trstep fuel t) None c m) (fun r m' =>
    tree_end om live r.1 r.2 m' /\ unchanged_outside (HCTL :: t :: objs_cells om) m m').
Proof. exact tree_history. Qed.
Print Assumptions C39_history.
Example C39_balance_example : tree_at ex_hm ex_heavy /\ NoDup (tree_cells ex_heavy) /\
  avl (Node 3008 3000 2 (Node 2008 2000 1 Leaf Leaf) (Node 4008 4000 1 Leaf Leaf)).
Proof. exact ex_heavy_ok. Qed.
