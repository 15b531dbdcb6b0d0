(** * A table with three elements in one bucket *)
From Verif Require Export TableChain ExamplesTable.
Global Open Scope Z_scope.

Lemma ex_kany_looks : looks ex_kany.
Proof. done. Qed.

Definition chain_ops : list top :=
  [TInit 0; TInsert 1008 1000 5; TInsert 2008 2000 5; TInsert 3008 3000 (2 ^ 63 + 5); TInsert 4008 4000 6].
Lemma chain_allowed : allowed (tpre ex_om ex_K) tpost (tstate0 ex_om ex_live) (prog_of_list chain_ops).
Proof.
  unfold chain_ops. cbn [prog_of_list allowed]. unfold tstate0.
  assert (Hdom : dom ex_om = {[1008; 2008; 3008; 4008]}) by (unfold ex_om; cbn; set_solver).
  rewrite Hdom. clear Hdom.
  split; [done|]. intros ? ? [_ ->]. cbn [ts_free ts_tab ts_live].
  do 4 (split; [split; [set_solver|split; [eexists; reflexivity|split; lia]]|];
    intros ? ? (es & Ht & _ & ->); cbn [ts_tab] in Ht; injection Ht as <-; cbn [ts_free ts_tab ts_live app]).
  done.
Qed.

(** The chains of the hashes 5, 6 and 7, and searches of the third element of
    the first one with three and with two steps. *)
Definition chain_answers (T : table) : list (list (Z * Z)) * (Z * bool) :=
  match run (tstep T 4 ex_t) None (prog_of_list chain_ops) ex_m with
  | Ok (Some st, _) m' =>
      ((λ h, match (i ← tb_bucket T st h; list_walk 4 i) m' with Ok xs _ => xs | _ => [] end) <$> [5; 6; 7],
       (match tb_search T 3 st ex_kany 0 (2 ^ 63 + 5) m' with Ok d _ => d | _ => 0 end,
        match tb_search T 2 st ex_kany 0 (2 ^ 63 + 5) m' with Fuel => true | _ => false end))
  | _ => ([], (0, false))
  end.
Definition chain_expected : list (list (Z * Z)) * (Z * bool) :=
  ([[(1008, 1000); (2008, 2000); (3008, 3000)]; [(4008, 4000)]; []], (3000, true)).
Lemma chain_run : chain_answers hashtable_table = chain_expected ∧ chain_answers hashdyn_table = chain_expected ∧
  chain_answers hashlin_table = chain_expected.
Proof. vm_compute. done. Qed.
Lemma chain_sizes : chain_lengths (λ h, h mod 16) 16 [Ent 1008 1000 5; Ent 2008 2000 5; Ent 3008 3000 (2 ^ 63 + 5); Ent 4008 4000 6] =
  [0; 0; 0; 0; 0; 3; 1; 0; 0; 0; 0; 0; 0; 0; 0; 0]%nat.
Proof. vm_compute. done. Qed.
