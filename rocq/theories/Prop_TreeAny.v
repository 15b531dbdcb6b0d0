(** * Property C67: the tree is safe with a comparison that is not an order. *)
From Verif Require Import ExamplesTreeAny.
Global Open Scope Z_scope.

(** The comparison only has to return some number and to write nothing
    ([answers]): the number may contradict earlier answers and depend on the
    whole memory.  No operation of any client runs into undefined behaviour or
    recurses deeper than the number of elements, memory outside the nodes does
    not change, and the answers are those of [anypost]: an insertion adds the
    element at some place or returns an element of the tree, a removal removes
    one element or none, searches and visits change nothing, each with a
    logarithmic number of comparisons.  At the end ([any_end]) the tree in memory
    holds exactly the elements added and not removed, is balanced as C38 says, and
    its count is exact. *)
Theorem C67_tree_any_comparison : forall om K D t live m fuel c,
  tree_start om K t live m -> (size om + 4 <= fuel)%nat ->
  allowed (anypre om K D) anypost (anystate0 om live) c ->
  succeeds (run (trstep fuel t) None c m) (fun r m' =>
    any_end om live r.1 r.2 m' /\ unchanged_outside (HCTL :: t :: objs_cells om) m m').
Proof. exact tree_any. Qed.
Print Assumptions C67_tree_any_comparison.

(** tommy_tree_remove_existing is not among the operations: with a comparison
    that does not find an element equal to itself its assert fails. *)
Theorem C67_remove_existing_asserts :
  run (trstep 12 ex_t) None (prog_of_list [TrInit ex_greater (fun _ _ => 1); TrInsert 1008 1000; TrRemoveExisting 1008]) ex7_m = UB.
Proof. exact ex_lost_ub. Qed.
Print Assumptions C67_remove_existing_asserts.

(** A comparison that answers "greater", "smaller", "equal" in turn, a client and
    what it gets. *)
Example C67_start_example : tree_start ex7_om ∅ ex_t ∅ ex7_m.
Proof. exact ex7_start. Qed.
Example C67_client_example : allowed (anypre ex7_om ∅ (fun _ => True)) anypost (anystate0 ex7_om ∅) ex_any_client.
Proof. exact ex_any_allowed. Qed.
Example C67_run_example : ex_any_answers =
  [TrNone; TrFound 1000 []; TrFound 2000 [2000; 1000]; TrFound 3000 [3000; 1000; 3000; 2000];
   TrFound 3000 [4000; 1000; 4000; 2000; 4000; 3000]; TrFound 3000 [5000; 1000; 5000; 2000; 5000; 3000];
   TrData [1000; 3000; 2000]; TrFound 3000 [1000; 1000; 1000; 2000; 1000; 3000];
   TrFound 3000 [5000; 1000; 5000; 2000; 5000; 3000]; TrFound 3000 [1000; 1000; 1000; 2000; 1000; 3000];
   TrData [1000; 2000]; TrWord 2; TrFound 0 [1000; 1000; 1000; 2000]; TrWord 2].
Proof. exact ex_any_run. Qed.
