(** * Properties C32, C33 and C59: the inplace trie of tommytrieinp.h and tommytrieinp.c. *)
From Verif Require Import ExamplesInp.
Global Open Scope Z_scope.

(** ** C32: search and bucket *)

(** Any client that respects the preconditions [ipre] gets from every operation
    the answer that the specification [ipost] asks for; the run succeeds, for
    every fuel from 14, and changes nothing but the
    client's nodes and the bucket array. *)
Theorem C32_inp_history : forall om tb m fuel c,
  inp_start om tb m -> (14 <= fuel)%nat -> allowed ipre ipost (istate0 om) c ->
  succeeds (run (istep fuel tb) None c m) (fun r m' =>
    inp_end om r.1 r.2 /\ unchanged_outside (node_cells 64 tb ++ objs_cells om) m m').
Proof. exact inp_history. Qed.
Print Assumptions C32_inp_history.
(** [iset ops] computes the elements inserted since the last init and not
    removed, in insertion order, from the operations alone. *)
Theorem C32_bucket_search : after_any_inp_history (fun _ tr => forall tr0 k a tr1,
  (tr = tr0 ++ (IOp (KBucket k), a) :: tr1 ->
     a = KNodes ((fun e => (te_p e, te_d e)) <$> with_key k (iset tr0.*1))) /\
  (tr = tr0 ++ (IOp (KSearch k), a) :: tr1 ->
     a = KWord (match with_key k (iset tr0.*1) with e :: _ => te_d e | [] => 0 end))).
Proof. exact inp_bucket_ok. Qed.
Print Assumptions C32_bucket_search.
Example C32_start_example : inp_start iex_om ex_tb iex_m.
Proof. exact iex_start. Qed.
Example C32_client_example : allowed ipre ipost (istate0 iex_om) (prog_of_list iex_ops).
Proof. exact iex_allowed. Qed.
Example C32_run_example : iex_answers =
  [KNone; KNone; KNone; KNone; KNone; KNone; KWord 5; KWord 320; KNodes [(2008, 2000); (4008, 4000)];
   KWord 1000; KWord 0; KWord 2000; KWord 3000; KWord 0; KNone; KWord 2000; KNodes [(4008, 4000)];
   KWord 3000; KWord 3000; KNodes [(4008, 4000)]; KWord 5000; KWord 4000; KWord 0; KWord 1000;
   KWord 2; KNone; KWord 0; KNone; KWord 1000; KWord 0].
Proof. exact iex_run. Qed.

(** ** C33: removal and count *)
Theorem C33_remove : after_any_inp_history (fun _ tr => forall tr0 k a tr1,
  tr = tr0 ++ (IOp (KRemove k), a) :: tr1 ->
  let es := iset tr0.*1 in let es' := iset (tr0.*1 ++ [IOp (KRemove k)]) in
  (exists es1 e es2, es = es1 ++ e :: es2 /\ es' = es1 ++ es2 /\ te_k e = k /\
     Forall (fun e => te_k e <> k) es1 /\ a = KWord (te_d e)) \/
  (Forall (fun e => te_k e <> k) es /\ es' = es /\ a = KWord 0)).
Proof. exact inp_remove_ok. Qed.
Print Assumptions C33_remove.
Theorem C33_remove_existing : after_any_inp_history (fun _ tr => forall tr0 p a tr1,
  tr = tr0 ++ (IOp (KRemoveExisting p), a) :: tr1 ->
  let es := iset tr0.*1 in let es' := iset (tr0.*1 ++ [IOp (KRemoveExisting p)]) in
  exists es1 d k es2, es = es1 ++ TEnt p d k :: es2 /\ es' = es1 ++ es2 /\ a = KWord d).
Proof. exact inp_remove_existing_ok. Qed.
Print Assumptions C33_remove_existing.
Theorem C33_count : after_any_inp_history (fun cs tr =>
  (forall tr0 a tr1, tr = tr0 ++ (IOp KCount, a) :: tr1 -> a = KWord (Z.of_nat (length (iset tr0.*1)))) /\
  (forall t, cs = Some t -> inp_count t = Z.of_nat (length (iset tr.*1)))).
Proof. exact inp_count_ok. Qed.
Print Assumptions C33_count.
(** memory_usage: 64 bytes for each element *)
Theorem C33_memory_usage : after_any_inp_history (fun _ tr => forall tr0 a tr1,
  tr = tr0 ++ (IUsage, a) :: tr1 -> a = KWord (64 * Z.of_nat (length (iset tr0.*1)))).
Proof. exact inp_usage_ok. Qed.
Print Assumptions C33_memory_usage.
(** A shift of a key (64 bits) by 64 or more, also one that wraps below zero, is undefined
    behaviour in the model ([shr_key]), and so is a failing assertion. *)
Theorem C33_no_undefined_behaviour : forall om tb m fuel c, inp_start om tb m -> (14 <= fuel)%nat ->
  allowed ipre ipost (istate0 om) c -> exists r m', run (istep fuel tb) None c m = Ok r m'.
Proof. exact inp_no_ub. Qed.
Print Assumptions C33_no_undefined_behaviour.
Example C33_shift_example : forall m, shr_key 5 30 m = Ok 0 m /\ shr_key 5 64 m = UB /\ shr_key 5 (sub32 0 INP_TREE_BIT) m = UB.
Proof. intros m. split; [|split]; reflexivity. Qed.
Example C33_client_example : allowed ipre ipost (istate0 iex_om) (prog_of_list iex_ops).
Proof. exact iex_allowed. Qed.

(** ** C59: a constant number of steps

    The loops of the inplace trie go down at most 14 levels in every operation,
    however many elements there are. *)
Theorem C59_inp_constant_steps : forall om tb m c,
  inp_start om tb m -> allowed ipre ipost (istate0 om) c ->
  succeeds (run (istep 14 tb) None c m) (fun r _ => inp_end om r.1 r.2).
Proof. exact inp_constant_steps. Qed.
Print Assumptions C59_inp_constant_steps.
(** 14 is exact. *)
Example C59_inp_client : inp_start iex_om ex_tb iex_m /\ allowed ipre ipost (istate0 iex_om) (prog_of_list deep_ops).
Proof. exact (conj iex_start deep_allowed). Qed.
Example C59_inp_exact : deep_last 14 = Some (KWord 15000) /\ deep_fuel 13 = true.
Proof. exact deep_run. Qed.
