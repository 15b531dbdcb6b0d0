(** * Properties C55 and C56: several containers and the memory of the client. *)
From Verif Require Import ExamplesWorld.
Global Open Scope Z_scope.

(** ** C55: containers do not disturb each other *)

(** Any number of containers of any kind share one heap.  A client that
    respects the preconditions of each of them, and uses only its own memory,
    gets from every operation the answer that the specification of that
    container asks for.  The run never commits undefined behaviour, leaves the
    client's memory as the specification says, and changes nothing else. *)
Theorem C55_world_history : forall fuel K0 cs c m prog,
  world_start (world fuel K0 cs) K0 c m ->
  allowed (wpre (world fuel K0 cs)) (wpost (world fuel K0 cs)) (c, p_sst0 (world fuel K0 cs)) prog ->
  safe (run (p_step (world fuel K0 cs)) (p_cst0 (world fuel K0 cs)) prog m) (fun r m' =>
    world_end (world fuel K0 cs) c r.2 m' /\ unchanged_outside (world_cells (world fuel K0 cs) c) m m').
Proof. exact world_history. Qed.
Print Assumptions C55_world_history.
(** The answers of one container, wherever it is among the others, are those
    of its own specification: the operations of the others play no part. *)
Theorem C55_own_answers : forall fuel K0 cs1 k cs2 c m prog,
  world_start (world fuel K0 (cs1 ++ k :: cs2)) K0 c m ->
  allowed (wpre (world fuel K0 (cs1 ++ k :: cs2))) (wpost (world fuel K0 (cs1 ++ k :: cs2)))
    (c, p_sst0 (world fuel K0 (cs1 ++ k :: cs2))) prog ->
  safe (run (p_step (world fuel K0 (cs1 ++ k :: cs2))) (p_cst0 (world fuel K0 (cs1 ++ k :: cs2))) prog m) (fun r _ =>
    exists s', correct (own_post (part_of fuel K0 k)) (p_sst0 (part_of fuel K0 k)) (own_events fuel K0 cs1 k cs2 r.2) s').
Proof. exact world_own_answers. Qed.
Print Assumptions C55_own_answers.
(** No heap block is left behind by containers that are done. *)
Theorem C55_no_leak : after_any_world_history (fun fuel K0 cs c _ tr _ m' =>
  exists c' s', correct (wpost (world fuel K0 cs)) (c, p_sst0 (world fuel K0 cs)) tr (c', s') /\
  (p_idle (world fuel K0 cs) s' -> heap_live m' (cm_blocks c'))).
Proof. exact world_no_leak. Qed.
Print Assumptions C55_no_leak.
Example C55_start_example : world_start (world 64 ∅ wex_cs) ∅ wex_c wex_m.
Proof. exact wex_start. Qed.
Example C55_client_example :
  allowed (wpre (world 64 ∅ wex_cs)) (wpost (world 64 ∅ wex_cs)) (wex_c, p_sst0 (world 64 ∅ wex_cs)) wex_client.
Proof. exact wex_allowed. Qed.
Example C55_run_example : wex_result = (wex_expected, Some []).
Proof. exact wex_run. Qed.

(** ** C56: the client's own words *)

(** Whatever is done to the containers, a word that the client may read holds
    what the client last wrote there. *)
Theorem C56_read_last_write : after_any_world_history (fun fuel K0 cs c _ tr _ _ =>
  forall l1 a out l2, memory_events fuel K0 cs tr = l1 ++ (MRead a, out) :: l2 ->
    exists v, out = MWord v /\ last_write a (cm_words c !! a ≫= id) l1 = Some v).
Proof. exact world_reads. Qed.
Print Assumptions C56_read_last_write.
(** In the example the client reads 9 from a word of an object that is in both
    containers. *)
Example C56_case :
  In (inr (inr (inr (MRead (131072 + 72))))) (wex_use 131072 200576) /\
  In (inr (inr (inr (MWord 9)))) wex_expected.
Proof. split; simpl; tauto. Qed.
