(** * Properties C01-C07 and C60: the list of tommylist.h / tommylist.c. *)
From Verif Require Import ListHist SortFast ExamplesCall.
Global Open Scope Z_scope.

(** ** C01, C02, C07 over histories *)

(** Any client that respects the preconditions, working with any number of
    lists and nodes, gets from every operation the answer that the sequence
    specification [lpost] asks for; the run has no undefined behaviour and
    terminates; nothing outside the list variables and the client's objects is
    written.  [lpost] covers init, insert, remove, concat, sort, head, tail,
    empty, count, walking the links and the three forms of foreach, one of
    which frees the visited objects.  The comparison functions may read the
    memory [K], which is any memory of the client outside of the lists and the
    nodes. *)
Theorem C01_list_history : forall om K ls t live m fuel c,
  list_start om K ls t live m ->
  (size om <= fuel)%nat ->
  allowed (lpre om K) lpost (lstate0 om ls live) c ->
  succeeds (run (lstep fuel t) tt c m) (fun r m' =>
    (exists s', correct lpost (lstate0 om ls live) r.2 s' /\ heap_live m' (ls_live s')) /\
    unchanged_outside (HCTL :: t :: ls ++ objs_cells om) m m').
Proof. exact list_history. Qed.
Print Assumptions C01_list_history.

(** The premises hold of a concrete memory and a concrete client: three
    objects, two lists, all operations, the last one freeing the objects.  The
    comparison loads the keys of the two objects from memory. *)
Example C01_start_example : list_start ex_om ex_K [ex_l1; ex_l2] ex_t ex_live ex_m.
Proof. exact ex_list_start. Qed.
Example C01_client_example : allowed (lpre ex_om ex_K) lpost (lstate0 ex_om [ex_l1; ex_l2] ex_live) ex_list_client.
Proof. exact ex_list_allowed. Qed.
Example C01_run_example : ex_list_answers = ex_list_expected.
Proof. exact ex_list_run. Qed.

(** ** C02: concatenation, cell by cell *)
Theorem C02_list_concat : forall m l1 l2 xs ys,
  list_rep m l1 xs -> list_rep m l2 ys ->
  NoDup ((l1 :: (xs.*1 ≫= node_cells 4)) ++ l2 :: (ys.*1 ≫= node_cells 4)) ->
  succeeds (list_concat l1 l2 m) (fun _ m' =>
    list_rep m' l1 (xs ++ ys) /\
    unchanged_outside (link_cells l1 xs ++ link_cells l2 ys) m m').
Proof. exact concat_rep. Qed.
Print Assumptions C02_list_concat.

(** ** C03-C06: sorting

    The comparison function [f] of the client runs in the memory: it may read
    any memory [K] of the client, apart from the links that the sort changes,
    and it returns [c a b] (or [g log a b]) for the data of the list. *)

(** C03: a sorted permutation, nodes keeping their data; only links change. *)
Theorem C03_list_sort_sorted_permutation : forall m K l t xs f c fuel,
  list_rep m l xs -> m !! t = Some (Tape []) -> (length xs <= fuel)%nat ->
  separate K (t :: l :: (xs.*1 ≫= node_cells 4)) m ->
  (forall a b, a ∈ xs.*2 -> b ∈ xs.*2 -> reads K f c a b) -> total_preorder c ->
  succeeds (list_sort fuel l (tape_cmp t (fun _ => f)) m) (fun _ m' =>
    exists ys, list_rep m' l ys /\ Permutation ys xs /\ sorted_by c ys /\
    unchanged_outside (t :: link_cells l xs) m m').
Proof. exact sort_sorted. Qed.
Print Assumptions C03_list_sort_sorted_permutation.

(** C04: stability. *)
Theorem C04_list_sort_stable : forall m K l t xs f c fuel,
  list_rep m l xs -> m !! t = Some (Tape []) -> (length xs <= fuel)%nat ->
  separate K (t :: l :: (xs.*1 ≫= node_cells 4)) m ->
  (forall a b, a ∈ xs.*2 -> b ∈ xs.*2 -> reads K f c a b) -> total_preorder c ->
  succeeds (list_sort fuel l (tape_cmp t (fun _ => f)) m) (fun _ m' =>
    exists ys, list_rep m' l ys /\ stable_by c xs ys).
Proof. exact sort_stable. Qed.
Print Assumptions C04_list_sort_stable.

(** C05: any comparison function, even one that depends on all earlier calls:
    no undefined behaviour, termination, the same nodes. *)
Theorem C05_list_sort_any_comparator : forall m K l t xs f g fuel,
  list_rep m l xs -> m !! t = Some (Tape []) -> (length xs <= fuel)%nat ->
  separate K (t :: l :: (xs.*1 ≫= node_cells 4)) m ->
  (forall log a b, a ∈ xs.*2 -> b ∈ xs.*2 -> reads K (f log) (g log) a b) ->
  succeeds (list_sort fuel l (tape_cmp t f) m) (fun _ m' =>
    exists ys, list_rep m' l ys /\ Permutation ys xs /\
    unchanged_outside (t :: link_cells l xs) m m').
Proof. exact sort_any. Qed.
Print Assumptions C05_list_sort_any_comparator.

(** C06: at most N * ceil(log2 N) + N calls of the comparison function (each
    call writes two words on the tape). *)
Theorem C06_list_sort_comparisons : forall m K l t xs f g fuel,
  list_rep m l xs -> m !! t = Some (Tape []) -> (length xs <= fuel)%nat ->
  separate K (t :: l :: (xs.*1 ≫= node_cells 4)) m ->
  (forall log a b, a ∈ xs.*2 -> b ∈ xs.*2 -> reads K (f log) (g log) a b) ->
  let N := Z.of_nat (length xs) in
  succeeds (list_sort fuel l (tape_cmp t f) m) (fun _ m' =>
    exists calls, m' !! t = Some (Tape calls) /\
    Z.of_nat (length calls) <= 2 * (N * Z.log2_up N + N)).
Proof. exact sort_count. Qed.
Print Assumptions C06_list_sort_comparisons.

(** Premises of C02-C06 on a concrete memory with two lists and a comparison
    that loads the keys 7, 3, 7 of the three elements from memory. *)
Example C03_rep_example :
  list_rep ex_m2 ex_l1 ex_xs2 /\ ex_m2 !! ex_t = Some (Tape []) /\
  separate ex_K (ex_t :: ex_l1 :: (ex_xs2.*1 ≫= node_cells 4)) ex_m2 /\
  (forall a b, a ∈ ex_xs2.*2 -> b ∈ ex_xs2.*2 -> reads ex_K (ex_kcmp 4000) (ex_cmp 4000) a b) /\
  total_preorder (ex_cmp 4000).
Proof. exact ex_rep. Qed.
Example C02_rep_example :
  list_rep ex_m2 ex_l2 [(4008, 4000)] /\
  NoDup ((ex_l1 :: ([1008; 2008; 3008] ≫= node_cells 4)) ++ ex_l2 :: ([4008] ≫= node_cells 4)).
Proof. exact ex_rep2. Qed.

(** ** C07: foreach *)

(** The function is called once per element in list order, and the iteration
    itself writes nothing at all. *)
Theorem C07_list_foreach : forall m l t xs fuel,
  list_rep m l xs -> m !! t = Some (Tape []) -> (length xs <= fuel)%nat ->
  list_foreach fuel l (visit t) m = Ok tt (<[t := Tape xs.*2]> m).
Proof. exact foreach_exact. Qed.
Print Assumptions C07_list_foreach.

(** The same with a function that takes an argument. *)
Theorem C07_list_foreach_arg : forall m l t xs arg fuel,
  list_rep m l xs -> m !! t = Some (Tape []) -> (length xs <= fuel)%nat ->
  list_foreach_arg fuel l (visit_arg t) arg m = Ok tt (<[t := Tape (pd ← xs; [arg; pd.2])]> m).
Proof. exact foreach_arg_exact. Qed.
Print Assumptions C07_list_foreach_arg.

(** Any callback: foreach calls it once for each element, in list order, and
    does nothing else, provided that the callback leaves alone the nodes that it
    has not been called for yet.  So it may free, or write over, the one it is
    called with. *)
Theorem C07_list_foreach_any : forall func m l xs fuel,
  list_rep m l xs -> (length xs <= fuel)%nat -> spares_unvisited func xs m ->
  list_foreach fuel l func m = each func xs.*2 m.
Proof. exact list_foreach_any. Qed.
Print Assumptions C07_list_foreach_any.

Theorem C07_list_foreach_arg_any : forall func m l xs arg fuel,
  list_rep m l xs -> (length xs <= fuel)%nat -> spares_unvisited (func arg) xs m ->
  list_foreach_arg fuel l func arg m = each (func arg) xs.*2 m.
Proof. exact list_foreach_arg_any. Qed.
Print Assumptions C07_list_foreach_arg_any.

(** A callback that writes over the links and the datum of the node. *)
Example C07_any_example : list_rep ex_m3 ex_l1 ex_xs3 /\ spares_unvisited ex_smash ex_xs3 ex_m3.
Proof. exact ex_smash_list. Qed.
Example C07_any_run_example : ex_smash_list_tape = Some [1000; 2000; 3000].
Proof. exact ex_smash_list_calls. Qed.

(** Deallocation: a client that builds any list by any history and then runs
    foreach with a function that frees the visited object gets each object
    visited and freed exactly once, in order.  This is the [LForeachFree]
    case of [C01_list_history]; the resulting heap is spelled out here. *)
Theorem C07_list_foreach_free : forall om K ls t live m fuel c,
  list_start om K ls t live m -> (size om <= fuel)%nat ->
  allowed (lpre om K) lpost (lstate0 om ls live) c ->
  succeeds (run (lstep fuel t) tt c m) (fun r m' =>
    forall tr l a, r.2 = tr ++ [(LForeachFree l, a)] ->
    exists s xs, correct lpost (lstate0 om ls live) tr s /\ has_list s l xs /\
      a = OData xs.*2 /\ heap_live m' (free_all xs.*2 (ls_live s))).
Proof. exact foreach_free_last. Qed.
Print Assumptions C07_list_foreach_free.

(** ** C60: sorting a list that is in order

    With N elements: N - 1 calls of the comparison function if the list is in
    order, 2 (N - 1) if it is in strictly reverse order (each call writes two
    words on the tape).  Nothing is asked of the comparison function but its
    answers for the pairs of elements of the list. *)
Theorem C60_list_sort_in_order : forall m K l t xs f c fuel,
  list_rep m l xs -> m !! t = Some (Tape []) -> (length xs <= fuel)%nat ->
  separate K (t :: l :: (xs.*1 ≫= node_cells 4)) m ->
  (forall a b, a ∈ xs.*2 -> b ∈ xs.*2 -> reads K f c a b) ->
  sorted_by c xs ->
  succeeds (list_sort fuel l (tape_cmp t (fun _ => f)) m) (fun _ m' =>
    list_rep m' l xs /\
    exists calls, m' !! t = Some (Tape calls) /\ length calls = (2 * (length xs - 1))%nat).
Proof. exact sort_in_order. Qed.
Print Assumptions C60_list_sort_in_order.
Theorem C60_list_sort_reversed : forall m K l t xs f c fuel,
  list_rep m l xs -> m !! t = Some (Tape []) -> (length xs <= fuel)%nat ->
  separate K (t :: l :: (xs.*1 ≫= node_cells 4)) m ->
  (forall a b, a ∈ xs.*2 -> b ∈ xs.*2 -> reads K f c a b) ->
  StronglySorted (fun x y => c x.2 y.2 > 0 /\ c y.2 x.2 < 0) xs ->
  succeeds (list_sort fuel l (tape_cmp t (fun _ => f)) m) (fun _ m' =>
    list_rep m' l (reverse xs) /\
    exists calls, m' !! t = Some (Tape calls) /\ length calls = (4 * (length xs - 1))%nat).
Proof. exact sort_reversed. Qed.
Print Assumptions C60_list_sort_reversed.
(** The list of [C03_rep_example] meets the premises of both. *)
Example C60_premises : separate ∅ (ex_t :: ex_l1 :: (ex_xs2.*1 ≫= node_cells 4)) ex_m2 /\
  (forall a b, reads ∅ ex_up (fun a b => a - b) a b /\ reads ∅ ex_down (fun a b => b - a) a b) /\
  sorted_by (fun a b => a - b) ex_xs2 /\
  StronglySorted (fun x y => (y : Z * Z).2 - (x : Z * Z).2 > 0 /\ x.2 - y.2 < 0) ex_xs2.
Proof. exact ex_orders. Qed.
Example C60_example : ex_sort_tape ex_up = Some (Tape [1000; 2000; 2000; 3000]) /\
  ex_sort_tape ex_down = Some (Tape [1000; 2000; 2000; 1000; 1000; 3000; 3000; 2000]).
Proof. exact ex_sort_tapes. Qed.
