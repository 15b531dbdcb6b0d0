(** * Properties C29 to C31, C59: the trie of tommytrie.h and tommytrie.c. *)
From Verif Require Import ExamplesTrie.
Global Open Scope Z_scope.

(** ** C29: search and bucket *)

(** Any client that respects the preconditions [xpre] gets from every operation
    the answer that the specification [xpost] asks for; the run meets no
    undefined behaviour, no failing assertion and no endless loop, for every
    fuel from 10, and changes nothing but the client's nodes, the bucket array
    and the heap.  The client may use the
    trie's allocator too. *)
Theorem C29_trie_history : forall om tb live m fuel c,
  trie_start om tb live m -> (10 <= fuel)%nat ->
  allowed xpre xpost (xstate0 om live) c ->
  safe (run (xstep fuel tb) None c m) (fun r m' =>
    trie_end om live r.1 r.2 m' /\ unchanged_outside (HCTL :: node_cells 32 tb ++ objs_cells om) m m').
Proof. exact trie_history. Qed.
Print Assumptions C29_trie_history.
(** [xset ops] computes the elements inserted and not removed, in insertion
    order, from the operations alone. *)
Theorem C29_bucket_search : after_any_trie_history (fun _ _ tr _ => forall tr0 k a tr1,
  (tr = tr0 ++ (XOp (KBucket k), a) :: tr1 ->
     a = KNodes ((fun e => (te_p e, te_d e)) <$> with_key k (xset tr0.*1))) /\
  (tr = tr0 ++ (XOp (KSearch k), a) :: tr1 ->
     a = KWord (match with_key k (xset tr0.*1) with e :: _ => te_d e | [] => 0 end))).
Proof. exact trie_bucket_ok. Qed.
Print Assumptions C29_bucket_search.
Example C29_start_example : trie_start ex_om ex_tb ex_live ex_trie_m.
Proof. exact ex_trie_start. Qed.
Example C29_client_example : allowed xpre xpost (xstate0 ex_om ex_live) ex_trie_client.
Proof. exact ex_trie_allowed. Qed.
Example C29_run_example : ex_trie_answers =
  [KNone; KWord 12160; KNone; KNone; KWord 64; KNone; KWord 736; KWord 704; KNone; KWord 4; KNone; KWord 1000;
   KNodes [(1008, 1000); (4008, 4000)]; KWord 0; KNodes []; KWord 1000; KNodes [(4008, 4000)]; KWord 0; KNone;
   KWord 736; KWord 3000; KWord 64; KWord 4000; KWord 2000; KWord 4000; KWord 0; KWord 0; KNone].
Proof. exact ex_trie_run. Qed.

(** ** C30: removal and count *)
Theorem C30_remove : after_any_trie_history (fun _ _ tr _ => forall tr0 k a tr1,
  tr = tr0 ++ (XOp (KRemove k), a) :: tr1 ->
  let es := xset tr0.*1 in let es' := xset (tr0.*1 ++ [XOp (KRemove k)]) in
  (exists es1 e es2, es = es1 ++ e :: es2 /\ es' = es1 ++ es2 /\ te_k e = k /\
     Forall (fun e => te_k e <> k) es1 /\ a = KWord (te_d e)) \/
  (Forall (fun e => te_k e <> k) es /\ es' = es /\ a = KWord 0)).
Proof. exact trie_remove_ok. Qed.
Print Assumptions C30_remove.
Theorem C30_remove_existing : after_any_trie_history (fun _ _ tr _ => forall tr0 p a tr1,
  tr = tr0 ++ (XOp (KRemoveExisting p), a) :: tr1 ->
  let es := xset tr0.*1 in let es' := xset (tr0.*1 ++ [XOp (KRemoveExisting p)]) in
  exists es1 d k es2, es = es1 ++ TEnt p d k :: es2 /\ es' = es1 ++ es2 /\ a = KWord d).
Proof. exact trie_remove_existing_ok. Qed.
Print Assumptions C30_remove_existing.
Theorem C30_count : after_any_trie_history (fun _ cs tr _ =>
  (forall tr0 a tr1, tr = tr0 ++ (XOp KCount, a) :: tr1 -> a = KWord (Z.of_nat (length (xset tr0.*1)))) /\
  (forall t al, cs = Some (t, al) -> tri_count t = Z.of_nat (length (xset tr.*1)))).
Proof. exact trie_count_ok. Qed.
Print Assumptions C30_count.
Example C30_client_example : allowed xpre xpost (xstate0 ex_om ex_live) ex_trie_client.
Proof. exact ex_trie_allowed. Qed.

(** ** C31: inner blocks *)

(** The node_count of the trie is the number of blocks that the allocator has
    handed out, less those of the client ([xheld]); it is exactly the number of
    prefixes that two different present keys share, so 0 if no element is
    present. *)
Theorem C31_inner_blocks : after_any_trie_history (fun _ cs tr _ => forall t al, cs = Some (t, al) ->
  tri_node_count t = al_count al - xheld tr.*1 /\
  tri_node_count t = Z.of_nat (inner_count (keys (xset tr.*1))) /\
  (xset tr.*1 = [] -> tri_node_count t = 0)).
Proof. exact trie_blocks_ok. Qed.
Print Assumptions C31_inner_blocks.
(** memory_usage: 32 bytes for each element, 64 for each inner block *)
Theorem C31_memory_usage : after_any_trie_history (fun _ _ tr _ => forall tr0 a tr1,
  tr = tr0 ++ (XUsage, a) :: tr1 ->
  let es := xset tr0.*1 in
  a = KWord (32 * Z.of_nat (length es) + 64 * Z.of_nat (inner_count (keys es)))).
Proof. exact trie_usage_ok. Qed.
Print Assumptions C31_memory_usage.
(** After tommy_allocator_done exactly the client's heap blocks are left. *)
Theorem C31_no_leak : after_any_trie_history (fun live cs tr m' => cs = None -> heap_live m' live).
Proof. exact trie_done_ok. Qed.
Print Assumptions C31_no_leak.
(** The assertions of the code, and writing beyond the path array, are undefined
    behaviour in the model. *)
Theorem C31_assertions : forall om tb live m fuel c, trie_start om tb live m -> (10 <= fuel)%nat ->
  allowed xpre xpost (xstate0 om live) c ->
  run (xstep fuel tb) None c m <> UB /\ run (xstep fuel tb) None c m <> Fuel.
Proof. exact trie_no_ub. Qed.
Print Assumptions C31_assertions.
Example C31_client_example : allowed xpre xpost (xstate0 ex_om ex_live) ex_trie_client.
Proof. exact ex_trie_allowed. Qed.

(** ** C59: a constant number of steps

    The loops of the trie go through at most 10 levels in every operation,
    however many elements there are: with the fuel 10 no operation of any client
    runs out of fuel.  (The walk along the elements of a bucket, which is the
    client's loop, has its own bound, the number of elements.) *)
Theorem C59_trie_constant_steps : forall om tb live m c,
  trie_start om tb live m -> allowed xpre xpost (xstate0 om live) c ->
  safe (run (xstep 10 tb) None c m) (fun r m' => trie_end om live r.1 r.2 m').
Proof. exact trie_constant_steps. Qed.
Print Assumptions C59_trie_constant_steps.
(** 10 is exact: the keys 4 and 5 of the client of [C29_client_example] need it. *)
Example C59_trie_exact : ex_trie_fuel 9 = true /\ ex_trie_fuel 10 = false.
Proof. exact ex_trie_fuels. Qed.
