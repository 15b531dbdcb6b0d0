(** * Properties C08-C20, C50, C51, C54, C57, C58: the hashtables of tommyhashtbl.h/.c,
    tommyhashdyn.h/.c and tommyhashlin.h/.c. *)
From Verif Require Import HashTblProof HashDynProof HashLinBurst TableProps TableSwap HashDynAmort ExamplesTable.
Global Open Scope Z_scope.

(** ** hashtable *)

(** Any client that respects the preconditions gets from every operation the
    answer that the specification [tpost] asks for; the run terminates without
    undefined behaviour (unless malloc fails), and nothing outside the client's
    objects is written.  [tpost] covers init, insert, remove, remove_existing,
    search, bucket, count, foreach, foreach_arg, foreach with a function that
    frees the objects, and done; [table_end] also says that the heap blocks are
    exactly those of the client and of the table, and none after done.  The
    search functions may read the memory [K], any memory of the client outside
    of the nodes. *)
Theorem C08_hashtable_history : forall om K t live m fuel c,
  table_start om K t live m ->
  (size om <= fuel)%nat ->
  allowed (tpre om K) tpost (tstate0 om live) c ->
  safe (run (tstep hashtable_table fuel t) None c m) (fun r m' =>
    table_end hashtable_table hashtable_inv om live r.1 r.2 m' /\
    unchanged_outside (HCTL :: t :: objs_cells om) m m').
Proof. exact hashtable_history. Qed.
Print Assumptions C08_hashtable_history.

(** C08: search returns the data of the first accepted element in insertion
    order, or 0, and changes nothing. *)
Theorem C08_hashtable_search : after_any_history hashtable_table (fun om live _ tr _ =>
  forall tr0 f g arg h a tr1, tr = tr0 ++ (TSearch f g arg h, a) :: tr1 ->
  exists es cs, content om live tr0 es /\ content om live (tr0 ++ [(TSearch f g arg h, a)]) es /\
    a = TOFound (first_match g arg h es) cs).
Proof. exact (table_search hashtable_table hashtable_inv hashtable_history). Qed.
Print Assumptions C08_hashtable_search.

(** C09: remove, remove_existing, insert, count. *)
Theorem C09_hashtable_remove : after_any_history hashtable_table (fun om live _ tr _ =>
  forall tr0 f g arg h a tr1, tr = tr0 ++ (TRemove f g arg h, a) :: tr1 ->
  exists es cs, content om live tr0 es /\
    content om live (tr0 ++ [(TRemove f g arg h, a)]) (remove_first g arg h es) /\
    a = TOFound (first_match g arg h es) cs).
Proof. exact (table_remove hashtable_table hashtable_inv hashtable_history). Qed.
Print Assumptions C09_hashtable_remove.
Theorem C09_hashtable_remove_existing : after_any_history hashtable_table (fun om live _ tr _ =>
  forall tr0 p a tr1, tr = tr0 ++ (TRemoveExisting p, a) :: tr1 ->
  exists es1 d h es2, content om live tr0 (es1 ++ Ent p d h :: es2) /\ a = TOWord d /\
    content om live (tr0 ++ [(TRemoveExisting p, a)]) (es1 ++ es2)).
Proof. exact (table_remove_existing hashtable_table hashtable_inv hashtable_history). Qed.
Print Assumptions C09_hashtable_remove_existing.
Theorem C09_hashtable_insert : after_any_history hashtable_table (fun om live _ tr _ =>
  forall tr0 p d h a tr1, tr = tr0 ++ (TInsert p d h, a) :: tr1 ->
  exists es, content om live tr0 es /\
    content om live (tr0 ++ [(TInsert p d h, a)]) (es ++ [Ent p d h])).
Proof. exact (table_insert hashtable_table hashtable_inv hashtable_history). Qed.
Print Assumptions C09_hashtable_insert.
Theorem C09_hashtable_count : after_any_history hashtable_table (fun om live _ tr _ =>
  forall tr0 a tr1, tr = tr0 ++ (TCount, a) :: tr1 ->
  exists es, content om live tr0 es /\ a = TOWord (Z.of_nat (length es))).
Proof. exact (table_count hashtable_table hashtable_inv hashtable_history). Qed.
Print Assumptions C09_hashtable_count.

(** C18: the bucket of a hash. *)
Theorem C18_hashtable_bucket : after_any_history hashtable_table (fun om live _ tr _ =>
  forall tr0 h a tr1, tr = tr0 ++ (TBucket h, a) :: tr1 ->
  exists es xs, content om live tr0 es /\ a = TONodes ((fun e => (en_p e, en_d e)) <$> xs) /\
    xs ⊆+ es /\ filter (fun e => en_h e = h) xs = filter (fun e => en_h e = h) es).
Proof. exact (table_bucket hashtable_table hashtable_inv hashtable_history). Qed.
Print Assumptions C18_hashtable_bucket.

(** C19: foreach, foreach_arg, and foreach with a function that frees the
    objects. *)
Theorem C19_hashtable_foreach : after_any_history hashtable_table (fun om live _ tr _ =>
  (forall tr0 a tr1, tr = tr0 ++ (TForeach, a) :: tr1 ->
    exists es es', content om live tr0 es /\ Permutation es' es /\ a = TOData (en_d <$> es')) /\
  (forall tr0 arg a tr1, tr = tr0 ++ (TForeachArg arg, a) :: tr1 ->
    exists es es', content om live tr0 es /\ Permutation es' es /\
      a = TOData (e ← es'; [arg; en_d e])) /\
  (forall tr0 a tr1, tr = tr0 ++ (TForeachFree, a) :: tr1 ->
    exists es es' s', content om live tr0 es /\ Permutation es' es /\ a = TOData (en_d <$> es') /\
      correct tpost (tstate0 om live) (tr0 ++ [(TForeachFree, a)]) s')).
Proof. exact (table_foreach hashtable_table hashtable_inv hashtable_history). Qed.
Print Assumptions C19_hashtable_foreach.

(** Any callback: after any history foreach and foreach_arg call it once for
    each element and do nothing else, provided that the callback leaves alone
    the heap blocks [int] of the table and the nodes that it has not been called
    for yet.  So it may free, or write over, the one it is called with. *)
Theorem C19_hashtable_foreach_any : after_any_history hashtable_table (fun om live cs tr m' =>
  exists s int, correct tpost (tstate0 om live) tr s /\ heap_live m' (int ∪ ts_live s) /\
    int ##ₘ ts_live s /\
    forall es, ts_tab s = TabEs es -> exists st es', cs = Some st /\ Permutation es' es /\
      (forall func fuel, (length es <= fuel)%nat ->
        spares_table func int ((fun e => (en_p e, en_d e)) <$> es') m' ->
        hashtable_foreach fuel st func m' = each func (en_d <$> es') m') /\
      (forall func arg fuel, (length es <= fuel)%nat ->
        spares_table (func arg) int ((fun e => (en_p e, en_d e)) <$> es') m' ->
        hashtable_foreach_arg fuel st func arg m' = each (func arg) (en_d <$> es') m')).
Proof. exact (table_visits hashtable_table hashtable_inv hashtable_history (fun _ _ _ _ => eq_refl)). Qed.
Print Assumptions C19_hashtable_foreach_any.

(** C20: the live blocks of the heap are those of the client, which the table
    never frees, and those of the table, of which none is left when the table
    is not initialised (before init and after done). *)
Theorem C20_hashtable_heap : after_any_history hashtable_table (fun om live cs tr m' =>
  exists s int, correct tpost (tstate0 om live) tr s /\ heap_live m' (int ∪ ts_live s) /\
    int ##ₘ ts_live s /\ (ts_tab s = TabNone -> int = ∅)).
Proof. exact (table_heap hashtable_table hashtable_inv hashtable_history). Qed.
Print Assumptions C20_hashtable_heap.

(** C54: memory_usage is the size of the live heap blocks of the table plus that
    of the nodes of its elements (32 bytes each). *)
Theorem C54_hashtable_memory_usage : after_any_history hashtable_table (fun om live cs tr m' =>
  exists s int, correct tpost (tstate0 om live) tr s /\ heap_live m' (int ∪ ts_live s) /\
    int ##ₘ ts_live s /\
    forall es, ts_tab s = TabEs es -> exists st, cs = Some st /\
      hashtable_memory_usage st = heap_bytes int + 32 * Z.of_nat (length es)).
Proof. exact (table_memory hashtable_table hashtable_inv hashtable_history). Qed.
Print Assumptions C54_hashtable_memory_usage.

(** The premises hold of a concrete memory and client, which then runs as
    expected; a second one makes the table grow and shrink. *)
Example C08_hashtable_start_example : table_start ex_om ex_K ex_t ex_live ex_m.
Proof. exact ex_table_start. Qed.
Example C08_hashtable_client_example : allowed (tpre ex_om ex_K) tpost (tstate0 ex_om ex_live) ex_table_client.
Proof. exact ex_table_allowed. Qed.
Example C08_hashtable_run_example : ex_table_answers hashtable_table = ex_table_expected.
Proof. exact ex_hashtable_run. Qed.
Example C08_hashtable_big_example : table_start big_om ∅ big_t ∅ big_m /\
  allowed (tpre big_om ∅) tpost (tstate0 big_om ∅) big_client.
Proof. exact (conj big_start big_allowed). Qed.

(** ** hashdyn *)

(** Any client that respects the preconditions gets from every operation the
    answer that the specification [tpost] asks for; the run terminates without
    undefined behaviour (unless malloc fails), and nothing outside the client's
    objects is written.  [tpost] covers init, insert, remove, remove_existing,
    search, bucket, count, foreach, foreach_arg, foreach with a function that
    frees the objects, and done; [table_end] also says that the heap blocks are
    exactly those of the client and of the table, and none after done. *)
Theorem C11_hashdyn_history : forall om K t live m fuel c,
  table_start om K t live m ->
  (size om <= fuel)%nat ->
  allowed (tpre om K) tpost (tstate0 om live) c ->
  safe (run (tstep hashdyn_table fuel t) None c m) (fun r m' =>
    table_end hashdyn_table hashdyn_inv om live r.1 r.2 m' /\
    unchanged_outside (HCTL :: t :: objs_cells om) m m').
Proof. exact hashdyn_history. Qed.
Print Assumptions C11_hashdyn_history.

(** C11: search returns the data of the first accepted element in insertion
    order, or 0, and changes nothing. *)
Theorem C11_hashdyn_search : after_any_history hashdyn_table (fun om live _ tr _ =>
  forall tr0 f g arg h a tr1, tr = tr0 ++ (TSearch f g arg h, a) :: tr1 ->
  exists es cs, content om live tr0 es /\ content om live (tr0 ++ [(TSearch f g arg h, a)]) es /\
    a = TOFound (first_match g arg h es) cs).
Proof. exact (table_search hashdyn_table hashdyn_inv hashdyn_history). Qed.
Print Assumptions C11_hashdyn_search.

(** C12: remove, remove_existing, insert, count. *)
Theorem C12_hashdyn_remove : after_any_history hashdyn_table (fun om live _ tr _ =>
  forall tr0 f g arg h a tr1, tr = tr0 ++ (TRemove f g arg h, a) :: tr1 ->
  exists es cs, content om live tr0 es /\
    content om live (tr0 ++ [(TRemove f g arg h, a)]) (remove_first g arg h es) /\
    a = TOFound (first_match g arg h es) cs).
Proof. exact (table_remove hashdyn_table hashdyn_inv hashdyn_history). Qed.
Print Assumptions C12_hashdyn_remove.
Theorem C12_hashdyn_remove_existing : after_any_history hashdyn_table (fun om live _ tr _ =>
  forall tr0 p a tr1, tr = tr0 ++ (TRemoveExisting p, a) :: tr1 ->
  exists es1 d h es2, content om live tr0 (es1 ++ Ent p d h :: es2) /\ a = TOWord d /\
    content om live (tr0 ++ [(TRemoveExisting p, a)]) (es1 ++ es2)).
Proof. exact (table_remove_existing hashdyn_table hashdyn_inv hashdyn_history). Qed.
Print Assumptions C12_hashdyn_remove_existing.
Theorem C12_hashdyn_insert : after_any_history hashdyn_table (fun om live _ tr _ =>
  forall tr0 p d h a tr1, tr = tr0 ++ (TInsert p d h, a) :: tr1 ->
  exists es, content om live tr0 es /\
    content om live (tr0 ++ [(TInsert p d h, a)]) (es ++ [Ent p d h])).
Proof. exact (table_insert hashdyn_table hashdyn_inv hashdyn_history). Qed.
Print Assumptions C12_hashdyn_insert.
Theorem C12_hashdyn_count : after_any_history hashdyn_table (fun om live _ tr _ =>
  forall tr0 a tr1, tr = tr0 ++ (TCount, a) :: tr1 ->
  exists es, content om live tr0 es /\ a = TOWord (Z.of_nat (length es))).
Proof. exact (table_count hashdyn_table hashdyn_inv hashdyn_history). Qed.
Print Assumptions C12_hashdyn_count.

(** C18: the bucket of a hash. *)
Theorem C18_hashdyn_bucket : after_any_history hashdyn_table (fun om live _ tr _ =>
  forall tr0 h a tr1, tr = tr0 ++ (TBucket h, a) :: tr1 ->
  exists es xs, content om live tr0 es /\ a = TONodes ((fun e => (en_p e, en_d e)) <$> xs) /\
    xs ⊆+ es /\ filter (fun e => en_h e = h) xs = filter (fun e => en_h e = h) es).
Proof. exact (table_bucket hashdyn_table hashdyn_inv hashdyn_history). Qed.
Print Assumptions C18_hashdyn_bucket.

(** C19: foreach, foreach_arg, and foreach with a function that frees the
    objects. *)
Theorem C19_hashdyn_foreach : after_any_history hashdyn_table (fun om live _ tr _ =>
  (forall tr0 a tr1, tr = tr0 ++ (TForeach, a) :: tr1 ->
    exists es es', content om live tr0 es /\ Permutation es' es /\ a = TOData (en_d <$> es')) /\
  (forall tr0 arg a tr1, tr = tr0 ++ (TForeachArg arg, a) :: tr1 ->
    exists es es', content om live tr0 es /\ Permutation es' es /\
      a = TOData (e ← es'; [arg; en_d e])) /\
  (forall tr0 a tr1, tr = tr0 ++ (TForeachFree, a) :: tr1 ->
    exists es es' s', content om live tr0 es /\ Permutation es' es /\ a = TOData (en_d <$> es') /\
      correct tpost (tstate0 om live) (tr0 ++ [(TForeachFree, a)]) s')).
Proof. exact (table_foreach hashdyn_table hashdyn_inv hashdyn_history). Qed.
Print Assumptions C19_hashdyn_foreach.

(** Any callback: after any history foreach and foreach_arg call it once for
    each element and do nothing else, provided that the callback leaves alone
    the heap blocks [int] of the table and the nodes that it has not been called
    for yet.  So it may free, or write over, the one it is called with. *)
Theorem C19_hashdyn_foreach_any : after_any_history hashdyn_table (fun om live cs tr m' =>
  exists s int, correct tpost (tstate0 om live) tr s /\ heap_live m' (int ∪ ts_live s) /\
    int ##ₘ ts_live s /\
    forall es, ts_tab s = TabEs es -> exists st es', cs = Some st /\ Permutation es' es /\
      (forall func fuel, (length es <= fuel)%nat ->
        spares_table func int ((fun e => (en_p e, en_d e)) <$> es') m' ->
        hashdyn_foreach fuel st func m' = each func (en_d <$> es') m') /\
      (forall func arg fuel, (length es <= fuel)%nat ->
        spares_table (func arg) int ((fun e => (en_p e, en_d e)) <$> es') m' ->
        hashdyn_foreach_arg fuel st func arg m' = each (func arg) (en_d <$> es') m')).
Proof. exact (table_visits hashdyn_table hashdyn_inv hashdyn_history (fun _ _ _ _ => eq_refl)). Qed.
Print Assumptions C19_hashdyn_foreach_any.

(** C20: the live blocks of the heap are those of the client, which the table
    never frees, and those of the table, of which none is left when the table
    is not initialised (before init and after done). *)
Theorem C20_hashdyn_heap : after_any_history hashdyn_table (fun om live cs tr m' =>
  exists s int, correct tpost (tstate0 om live) tr s /\ heap_live m' (int ∪ ts_live s) /\
    int ##ₘ ts_live s /\ (ts_tab s = TabNone -> int = ∅)).
Proof. exact (table_heap hashdyn_table hashdyn_inv hashdyn_history). Qed.
Print Assumptions C20_hashdyn_heap.

(** C54: memory_usage is the size of the live heap blocks of the table plus that
    of the nodes of its elements (32 bytes each). *)
Theorem C54_hashdyn_memory_usage : after_any_history hashdyn_table (fun om live cs tr m' =>
  exists s int, correct tpost (tstate0 om live) tr s /\ heap_live m' (int ∪ ts_live s) /\
    int ##ₘ ts_live s /\
    forall es, ts_tab s = TabEs es -> exists st, cs = Some st /\
      hashdyn_memory_usage st = heap_bytes int + 32 * Z.of_nat (length es)).
Proof. exact (table_memory hashdyn_table hashdyn_inv hashdyn_history). Qed.
Print Assumptions C54_hashdyn_memory_usage.

(** The premises hold of a concrete memory and client, which then runs as
    expected; a second one makes the table grow and shrink. *)
Example C11_hashdyn_start_example : table_start ex_om ex_K ex_t ex_live ex_m.
Proof. exact ex_table_start. Qed.
Example C11_hashdyn_client_example : allowed (tpre ex_om ex_K) tpost (tstate0 ex_om ex_live) ex_table_client.
Proof. exact ex_table_allowed. Qed.
Example C11_hashdyn_run_example : ex_table_answers hashdyn_table = ex_table_expected.
Proof. exact ex_hashdyn_run. Qed.
Example C11_hashdyn_big_example : table_start big_om ∅ big_t ∅ big_m /\
  allowed (tpre big_om ∅) tpost (tstate0 big_om ∅) big_client.
Proof. exact (conj big_start big_allowed). Qed.

(** ** hashlin *)

(** Any client that respects the preconditions gets from every operation the
    answer that the specification [tpost] asks for; the run terminates without
    undefined behaviour (unless malloc fails), and nothing outside the client's
    objects is written.  [tpost] covers init, insert, remove, remove_existing,
    search, bucket, count, foreach, foreach_arg, foreach with a function that
    frees the objects, and done; [table_end] also says that the heap blocks are
    exactly those of the client and of the table, and none after done. *)
Theorem C14_hashlin_history : forall om K t live m fuel c,
  table_start om K t live m ->
  (size om <= fuel)%nat ->
  allowed (tpre om K) tpost (tstate0 om live) c ->
  safe (run (tstep hashlin_table fuel t) None c m) (fun r m' =>
    table_end hashlin_table hashlin_inv om live r.1 r.2 m' /\
    unchanged_outside (HCTL :: t :: objs_cells om) m m').
Proof. exact hashlin_history. Qed.
Print Assumptions C14_hashlin_history.

(** C14: search returns the data of the first accepted element in insertion
    order, or 0, and changes nothing. *)
Theorem C14_hashlin_search : after_any_history hashlin_table (fun om live _ tr _ =>
  forall tr0 f g arg h a tr1, tr = tr0 ++ (TSearch f g arg h, a) :: tr1 ->
  exists es cs, content om live tr0 es /\ content om live (tr0 ++ [(TSearch f g arg h, a)]) es /\
    a = TOFound (first_match g arg h es) cs).
Proof. exact (table_search hashlin_table hashlin_inv hashlin_history). Qed.
Print Assumptions C14_hashlin_search.

(** C15: remove, remove_existing, insert, count. *)
Theorem C15_hashlin_remove : after_any_history hashlin_table (fun om live _ tr _ =>
  forall tr0 f g arg h a tr1, tr = tr0 ++ (TRemove f g arg h, a) :: tr1 ->
  exists es cs, content om live tr0 es /\
    content om live (tr0 ++ [(TRemove f g arg h, a)]) (remove_first g arg h es) /\
    a = TOFound (first_match g arg h es) cs).
Proof. exact (table_remove hashlin_table hashlin_inv hashlin_history). Qed.
Print Assumptions C15_hashlin_remove.
Theorem C15_hashlin_remove_existing : after_any_history hashlin_table (fun om live _ tr _ =>
  forall tr0 p a tr1, tr = tr0 ++ (TRemoveExisting p, a) :: tr1 ->
  exists es1 d h es2, content om live tr0 (es1 ++ Ent p d h :: es2) /\ a = TOWord d /\
    content om live (tr0 ++ [(TRemoveExisting p, a)]) (es1 ++ es2)).
Proof. exact (table_remove_existing hashlin_table hashlin_inv hashlin_history). Qed.
Print Assumptions C15_hashlin_remove_existing.
Theorem C15_hashlin_insert : after_any_history hashlin_table (fun om live _ tr _ =>
  forall tr0 p d h a tr1, tr = tr0 ++ (TInsert p d h, a) :: tr1 ->
  exists es, content om live tr0 es /\
    content om live (tr0 ++ [(TInsert p d h, a)]) (es ++ [Ent p d h])).
Proof. exact (table_insert hashlin_table hashlin_inv hashlin_history). Qed.
Print Assumptions C15_hashlin_insert.
Theorem C15_hashlin_count : after_any_history hashlin_table (fun om live _ tr _ =>
  forall tr0 a tr1, tr = tr0 ++ (TCount, a) :: tr1 ->
  exists es, content om live tr0 es /\ a = TOWord (Z.of_nat (length es))).
Proof. exact (table_count hashlin_table hashlin_inv hashlin_history). Qed.
Print Assumptions C15_hashlin_count.

(** C18: the bucket of a hash. *)
Theorem C18_hashlin_bucket : after_any_history hashlin_table (fun om live _ tr _ =>
  forall tr0 h a tr1, tr = tr0 ++ (TBucket h, a) :: tr1 ->
  exists es xs, content om live tr0 es /\ a = TONodes ((fun e => (en_p e, en_d e)) <$> xs) /\
    xs ⊆+ es /\ filter (fun e => en_h e = h) xs = filter (fun e => en_h e = h) es).
Proof. exact (table_bucket hashlin_table hashlin_inv hashlin_history). Qed.
Print Assumptions C18_hashlin_bucket.

(** C19: foreach, foreach_arg, and foreach with a function that frees the
    objects. *)
Theorem C19_hashlin_foreach : after_any_history hashlin_table (fun om live _ tr _ =>
  (forall tr0 a tr1, tr = tr0 ++ (TForeach, a) :: tr1 ->
    exists es es', content om live tr0 es /\ Permutation es' es /\ a = TOData (en_d <$> es')) /\
  (forall tr0 arg a tr1, tr = tr0 ++ (TForeachArg arg, a) :: tr1 ->
    exists es es', content om live tr0 es /\ Permutation es' es /\
      a = TOData (e ← es'; [arg; en_d e])) /\
  (forall tr0 a tr1, tr = tr0 ++ (TForeachFree, a) :: tr1 ->
    exists es es' s', content om live tr0 es /\ Permutation es' es /\ a = TOData (en_d <$> es') /\
      correct tpost (tstate0 om live) (tr0 ++ [(TForeachFree, a)]) s')).
Proof. exact (table_foreach hashlin_table hashlin_inv hashlin_history). Qed.
Print Assumptions C19_hashlin_foreach.

(** Any callback: after any history foreach and foreach_arg call it once for
    each element and do nothing else, provided that the callback leaves alone
    the heap blocks [int] of the table and the nodes that it has not been called
    for yet.  So it may free, or write over, the one it is called with. *)
Theorem C19_hashlin_foreach_any : after_any_history hashlin_table (fun om live cs tr m' =>
  exists s int, correct tpost (tstate0 om live) tr s /\ heap_live m' (int ∪ ts_live s) /\
    int ##ₘ ts_live s /\
    forall es, ts_tab s = TabEs es -> exists st es', cs = Some st /\ Permutation es' es /\
      (forall func fuel, (length es <= fuel)%nat ->
        spares_table func int ((fun e => (en_p e, en_d e)) <$> es') m' ->
        hashlin_foreach fuel st func m' = each func (en_d <$> es') m') /\
      (forall func arg fuel, (length es <= fuel)%nat ->
        spares_table (func arg) int ((fun e => (en_p e, en_d e)) <$> es') m' ->
        hashlin_foreach_arg fuel st func arg m' = each (func arg) (en_d <$> es') m')).
Proof. exact (table_visits hashlin_table hashlin_inv hashlin_history (fun _ _ _ _ => eq_refl)). Qed.
Print Assumptions C19_hashlin_foreach_any.

(** C20: the live blocks of the heap are those of the client, which the table
    never frees, and those of the table, of which none is left when the table
    is not initialised (before init and after done). *)
Theorem C20_hashlin_heap : after_any_history hashlin_table (fun om live cs tr m' =>
  exists s int, correct tpost (tstate0 om live) tr s /\ heap_live m' (int ∪ ts_live s) /\
    int ##ₘ ts_live s /\ (ts_tab s = TabNone -> int = ∅)).
Proof. exact (table_heap hashlin_table hashlin_inv hashlin_history). Qed.
Print Assumptions C20_hashlin_heap.

(** C54: memory_usage is the size of the live heap blocks of the table plus that
    of the nodes of its elements (32 bytes each). *)
Theorem C54_hashlin_memory_usage : after_any_history hashlin_table (fun om live cs tr m' =>
  exists s int, correct tpost (tstate0 om live) tr s /\ heap_live m' (int ∪ ts_live s) /\
    int ##ₘ ts_live s /\
    forall es, ts_tab s = TabEs es -> exists st, cs = Some st /\
      hashlin_memory_usage st = heap_bytes int + 32 * Z.of_nat (length es)).
Proof. exact (table_memory hashlin_table hashlin_inv hashlin_history). Qed.
Print Assumptions C54_hashlin_memory_usage.

(** The premises hold of a concrete memory and client, which then runs as
    expected; a second one makes the table grow and shrink. *)
Example C14_hashlin_start_example : table_start ex_om ex_K ex_t ex_live ex_m.
Proof. exact ex_table_start. Qed.
Example C14_hashlin_client_example : allowed (tpre ex_om ex_K) tpost (tstate0 ex_om ex_live) ex_table_client.
Proof. exact ex_table_allowed. Qed.
Example C14_hashlin_run_example : ex_table_answers hashlin_table = ex_table_expected.
Proof. exact ex_hashlin_run. Qed.
Example C14_hashlin_big_example : table_start big_om ∅ big_t ∅ big_m /\
  allowed (tpre big_om ∅) tpost (tstate0 big_om ∅) big_client.
Proof. exact (conj big_start big_allowed). Qed.

(** ** C10: number of buckets of the fixed table *)
Theorem C10_hashtable_init_size : forall n live m,
  0 <= n <= 2 ^ 60 -> heap_live m live ->
  safe (hashtable_init n m) (fun st m' =>
    (exists k, 0 <= k /\ ht_bucket_max st = 2 ^ k /\ n <= 2 ^ k /\ 16 <= 2 ^ k /\
       forall j, 0 <= j -> n <= 2 ^ j -> 16 <= 2 ^ j -> 2 ^ k <= 2 ^ j) /\
    live !! ht_bucket st = None /\
    heap_live m' (<[ht_bucket st := RWords (Z.to_nat (ht_bucket_max st))]> live)).
Proof. exact hashtable_init_size. Qed.
Print Assumptions C10_hashtable_init_size.
Example C10_example : match hashtable_init 17 big_m with Ok st _ => ht_bucket_max st = 32 | _ => False end.
Proof. exact ex_init_17. Qed.

(** ** C13: load factor of the dynamic table *)
Theorem C13_hashdyn_load : after_any_history hashdyn_table (fun om live cs tr _ =>
  exists s, correct tpost (tstate0 om live) tr s /\
  match ts_tab s with
  | TabNone => cs = None
  | TabEs es => exists st, cs = Some st /\
      (exists k, 4 <= k <= 60 /\ hd_bucket_max st = 2 ^ k /\ hd_bucket_bit st = k) /\
      hd_bucket_mask st = hd_bucket_max st - 1 /\ 16 <= hd_bucket_max st /\
      2 * Z.of_nat (length es) < hd_bucket_max st /\
      (hd_bucket_max st = 16 \/ hd_bucket_max st < 8 * Z.of_nat (length es)) /\
      hd_count st = Z.of_nat (length es)
  | TabFreed => True
  end).
Proof. exact (table_inv hashdyn_table hashdyn_inv hashdyn_history). Qed.
Print Assumptions C13_hashdyn_load.
Example C13_example : big_sizes hashdyn_table hd_bucket_max = big_hashdyn_sizes.
Proof. exact ex_hashdyn_sizes. Qed.

(** ** C16, C50: load factor of the linear table *)

(** C16 claims at least two valid buckets (low_max + split) per element after
    an insertion: false, an insertion made while the table is shrinking does
    not split buckets. *)
Theorem C16_hashlin_two_buckets_per_element_refuted : exists om K t live m fuel c l m',
  table_start om K t live m /\ (size om <= fuel)%nat /\ allowed (tpre om K) tpost (tstate0 om live) c /\
  run_all (tstep hashlin_table fuel t) None c m = Ok l m' /\
  exists l0 p d h a st l1, l = l0 ++ (TInsert p d h, a, Some st) :: l1 /\
    hl_low_max st + hl_split st < 2 * hl_count st.
Proof. exact hashlin_load_witness. Qed.
Print Assumptions C16_hashlin_two_buckets_per_element_refuted.

(** The rest of C16: no run reads an uninitialised or unallocated bucket,
    which is undefined behaviour in the model and so excluded by [safe]; at
    least 64 valid buckets; the bucket vector has 64 entries or is at least
    1/16 full.  Missing: the clause refuted above. *)
Theorem C16_hashlin_load_partial : after_any_history hashlin_table (fun om live cs tr _ =>
  exists s, correct tpost (tstate0 om live) tr s /\
  match ts_tab s with
  | TabNone => cs = None
  | TabEs es => exists st, cs = Some st /\
      64 <= hl_low_max st + hl_split st <= hl_bucket_max st /\
      (hl_bucket_max st = 64 \/ hl_bucket_max st <= 16 * Z.of_nat (length es)) /\
      hl_count st = Z.of_nat (length es)
  | TabFreed => True
  end).
Proof. exact hashlin_load. Qed.
Print Assumptions C16_hashlin_load_partial.

(** C50: at least one valid bucket per element in every state, and two
    buckets for all but one of them when the table is not shrinking; exact
    position of the split in each state. *)
Theorem C50_hashlin_load_bounds : after_any_history hashlin_table (fun om live cs tr _ =>
  exists s, correct tpost (tstate0 om live) tr s /\
  match ts_tab s with
  | TabNone => cs = None
  | TabEs es => exists st, cs = Some st /\
      let n := Z.of_nat (length es) in
      let valid := hl_low_max st + hl_split st in
      (exists k, 6 <= k <= 60 /\ hl_bucket_max st = 2 ^ k /\ hl_bucket_bit st = k) /\
      hl_bucket_mask st = hl_bucket_max st - 1 /\
      n <= valid /\ (hl_state st <> STATE_SHRINK -> 2 * (n - 1) <= valid) /\
      (hl_state st = STATE_STABLE /\ hl_split st = 0 /\ hl_low_max st = hl_bucket_max st \/
       hl_state st = STATE_GROW /\ 1 <= hl_split st < hl_low_max st /\ hl_bucket_max st = 2 * hl_low_max st \/
       hl_state st = STATE_SHRINK /\ 1 <= hl_split st < hl_low_max st /\ hl_bucket_max st = 2 * hl_low_max st)
  | TabFreed => True
  end).
Proof. exact hashlin_load_bounds. Qed.
Print Assumptions C50_hashlin_load_bounds.

(** ** C17, C51: resize work of the linear table *)

(** C17 claims a constant bound for the buckets split or merged by one
    operation: false.  However large the power of two is (up to 2^46, provided
    there are that many nodes), some history ends with an insertion that
    splits that many buckets less 8. *)
Theorem C17_hashlin_constant_work_refuted : forall k om K t live m fuel,
  0 <= k <= 40 -> table_start om K t live m -> (size om <= fuel)%nat ->
  64 * 2 ^ k < Z.of_nat (size om) ->
  exists c, allowed (tpre om K) tpost (tstate0 om live) c /\
  safe (run_all (tstep hashlin_table fuel t) None c m) (fun l _ =>
    exists l0 x, l = l0 ++ [x] /\ is_update x.1.1 = true /\
      op_work (struct_after None l0) x.2 = 64 * 2 ^ k - 8).
Proof. exact hashlin_burst. Qed.
Print Assumptions C17_hashlin_constant_work_refuted.
Example C17_start_example : table_start big_om ∅ big_t ∅ big_m /\ 64 * 2 ^ 0 < Z.of_nat (size big_om).
Proof. exact (conj big_start big_size_65). Qed.
Example C17_run_example :
  length big_run = 176%nat /\ total_work None big_run = 176 /\ updates big_run = 175 /\
  (big_run !! 174%nat ≫= hl_summary) = Some (true, 64, 72, STATE_SHRINK) /\
  (big_run !! 175%nat ≫= hl_summary) = Some (true, 65, 128, STATE_STABLE).
Proof. exact big_hashlin. Qed.

(** C51: what is true is the amortised bound, eight buckets per insert or
    remove over any history. *)
Theorem C51_hashlin_amortised_work : forall om K t live m fuel c,
  table_start om K t live m -> (size om <= fuel)%nat -> allowed (tpre om K) tpost (tstate0 om live) c ->
  safe (run_all (tstep hashlin_table fuel t) None c m) (fun l _ => total_work None l <= 8 * updates l).
Proof. exact hashlin_amortised. Qed.
Print Assumptions C51_hashlin_amortised_work.

(** The premise of the [C19_..._foreach_any] about the callback holds of one
    that writes over the node it is called with. *)
Example C19_any_example : spares_table ex_smash {[ 65536 := RWords 16 ]} ex_xs3 ex_m3.
Proof. exact ex_smash_table. Qed.

(** What memory_usage reports after a run that leaves 65 elements. *)
Example C54_example : last (big_memory hashtable_table) = Some (16 * 8 + 65 * 32) /\
  last (big_memory hashdyn_table) = Some (256 * 8 + 65 * 32) /\
  last (big_memory hashlin_table) = Some (128 * 8 + 65 * 32).
Proof. exact ex_memory. Qed.

(** ** C57: the hashtables are interchangeable

    A client that uses only operations whose answer does not show the order of
    the buckets (all but bucket and the foreach functions) gets from any two of
    the three tables the same answers to the same operations, comparisons
    included.  The two runs may start from different memories, and malloc may
    place the blocks of the tables anywhere. *)
Theorem C57_tables_interchangeable : forall T1 T2 om K t1 t2 live m1 m2 fuel1 fuel2 c r1 m1' r2 m2',
  a_hashtable T1 -> a_hashtable T2 ->
  table_start om K t1 live m1 -> table_start om K t2 live m2 ->
  (size om <= fuel1)%nat -> (size om <= fuel2)%nat ->
  allowed (tpre om K) tpost (tstate0 om live) c -> uses_only fixed_answer c ->
  run (tstep T1 fuel1 t1) None c m1 = Ok r1 m1' ->
  run (tstep T2 fuel2 t2) None c m2 = Ok r2 m2' ->
  r1.2 = r2.2.
Proof. exact tables_interchangeable. Qed.
Print Assumptions C57_tables_interchangeable.
Example C57_premises : table_start ex_om ex_K ex_t ex_live ex_m /\
  allowed (tpre ex_om ex_K) tpost (tstate0 ex_om ex_live) (prog_of_list swap_ops) /\
  uses_only fixed_answer (prog_of_list (out := tout) swap_ops).
Proof. exact (conj ex_table_start (conj swap_allowed swap_uses_only)). Qed.
Example C57_example : swap_answers hashtable_table = swap_expected /\
  swap_answers hashdyn_table = swap_expected /\ swap_answers hashlin_table = swap_expected.
Proof. exact swap_run. Qed.

(** ** C58: amortised work of the dynamic table

    Over any history, the buckets that the resizes go through and the elements
    that they link again are at most six per insert or remove. *)
Theorem C58_hashdyn_amortised_work : forall om K t live m fuel c,
  table_start om K t live m -> (size om <= fuel)%nat -> allowed (tpre om K) tpost (tstate0 om live) c ->
  safe (run_all (tstep hashdyn_table fuel t) None c m) (fun l _ => hd_total_work None l <= 6 * hd_updates l).
Proof. exact hashdyn_amortised. Qed.
Print Assumptions C58_hashdyn_amortised_work.
(** The sizes are those of [C13_example]. *)
Example C58_example : big_hd_work = (840, 175).
Proof. exact ex_hd_work. Qed.
