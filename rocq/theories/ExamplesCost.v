(** * Steps of histories of a tree and of a table. *)
From Verif Require Import RunAll ExamplesTree ExamplesTable CostTableSpec CostLinSpec RequestSpec ExamplesAccess.
Global Open Scope Z_scope.

(** The fourth operation of [ex_tree_client], an insertion with a double rotation *)
Lemma ex_tree_fourth : ∃ cs tr m1 cs' m2,
  run (trstep 8 ex_t) None (trunc 3 ex_tree_client) ex_m = Ok (cs, tr) m1 ∧
  run (trstep 8 ex_t) None (trunc 4 ex_tree_client) ex_m =
    Ok (cs', tr ++ [(TrInsert 2008 2000, TrFound 2000 [2000; 3000; 2000; 1000])]) m2.
Proof.
  assert (H : match run (trstep 8 ex_t) None (trunc 3 ex_tree_client) ex_m, run (trstep 8 ex_t) None (trunc 4 ex_tree_client) ex_m with
    | Ok (_, tr) _, Ok (_, tr') _ => tr' = tr ++ [(TrInsert 2008 2000, TrFound 2000 [2000; 3000; 2000; 1000])] | _, _ => False end)
    by (vm_compute; reflexivity).
  destruct (run (trstep 8 ex_t) None (trunc 3 ex_tree_client) ex_m) as [[cs tr] m1| | |]; [|done..].
  destruct (run (trstep 8 ex_t) None (trunc 4 ex_tree_client) ex_m) as [[cs' tr'] m2| | |]; [|done..].
  exists cs, tr, m1, cs', m2. by rewrite H.
Qed.

(** The eighth insertion of [big_client], which makes the dynamic table grow. *)
Lemma ex_grow_step : ∃ st tr m1 st' m2 p d h,
  run (tstep hashdyn_table 65 big_t) None (trunc 8 big_client) big_m = Ok (Some st, tr) m1 ∧
  run (tstep hashdyn_table 65 big_t) None (trunc 9 big_client) big_m = Ok (Some st', tr ++ [(TInsert p d h, TONone)]) m2 ∧
  hd_bucket_max st = 16 ∧ hd_bucket_max st' = 32 ∧ hd_work st st' = 24.
Proof.
  assert (H : match run (tstep hashdyn_table 65 big_t) None (trunc 8 big_client) big_m, run (tstep hashdyn_table 65 big_t) None (trunc 9 big_client) big_m with
    | Ok (Some st, tr) _, Ok (Some st', tr') _ => (∃ p d h, tr' = tr ++ [(TInsert p d h, TONone)]) ∧ hd_bucket_max st = 16 ∧ hd_bucket_max st' = 32 ∧ hd_work st st' = 24
    | _, _ => False end).
  { vm_compute. split; [by eexists _, _, _|done]. }
  destruct (run (tstep hashdyn_table 65 big_t) None (trunc 8 big_client) big_m) as [[[st|] tr] m1| | |]; [|done..].
  destruct (run (tstep hashdyn_table 65 big_t) None (trunc 9 big_client) big_m) as [[[st'|] tr'] m2| | |]; [|done..].
  destruct H as ((p & d & h & ->) & H). by exists st, tr, m1, st', m2, p, d, h.
Qed.
Lemma every_list {op out : Type} (P : op → Prop) (l : list op) : Forall P l → every P (prog_of_list (out := out) l).
Proof. induction 1 as [|o l Ho _ IH]; [done|]. split; [done|]. by intros ?. Qed.
Lemma big_by_node : every by_node big_client.
Proof.
  apply every_list. repeat (constructor || apply Forall_app_2); try done; unfold inserts, removes; apply Forall_fmap, Forall_true; by intros.
Qed.
Lemma big_looks : every tlooks big_client.
Proof.
  apply every_list. repeat (constructor || apply Forall_app_2); try done; unfold inserts, removes; apply Forall_fmap, Forall_true; by intros.
Qed.
Lemma big_run_hd : ∃ r m', run (tstep hashdyn_table 65 big_t) None big_client big_m = Ok r m' ∧ length r.2 = 176%nat.
Proof.
  assert (H : match run (tstep hashdyn_table 65 big_t) None big_client big_m with Ok r _ => length r.2 = 176%nat | _ => False end) by (vm_compute; reflexivity).
  destruct (run (tstep hashdyn_table 65 big_t) None big_client big_m) as [r m'| | |]; [|done..]. by exists r, m'.
Qed.

Lemma big_run_hl : ∃ r m', run (tstep hashlin_table 65 big_t) None big_client big_m = Ok r m' ∧ length r.2 = 176%nat.
Proof.
  assert (H : match run (tstep hashlin_table 65 big_t) None big_client big_m with Ok r _ => length r.2 = 176%nat | _ => False end) by (vm_compute; reflexivity).
  destruct (run (tstep hashlin_table 65 big_t) None big_client big_m) as [r m'| | |]; [|done..]. by exists r, m'.
Qed.

(** The last insertion of [big_client] splits 56 buckets of the linear table. *)
Lemma ex_split_step : ∃ st tr m1 st' m2 p d h,
  run (tstep hashlin_table 65 big_t) None (trunc 175 big_client) big_m = Ok (Some st, tr) m1 ∧
  run (tstep hashlin_table 65 big_t) None (trunc 176 big_client) big_m = Ok (Some st', tr ++ [(TInsert p d h, TONone)]) m2 ∧
  op_work (Some st) (Some st') = 56 ∧ hl_count st' = 65.
Proof.
  assert (H : match run (tstep hashlin_table 65 big_t) None (trunc 175 big_client) big_m, run (tstep hashlin_table 65 big_t) None (trunc 176 big_client) big_m with
    | Ok (Some st, tr) _, Ok (Some st', tr') _ => (∃ p d h, tr' = tr ++ [(TInsert p d h, TONone)]) ∧ op_work (Some st) (Some st') = 56 ∧ hl_count st' = 65
    | _, _ => False end).
  { vm_compute. split; [by eexists _, _, _|done]. }
  destruct (run (tstep hashlin_table 65 big_t) None (trunc 175 big_client) big_m) as [[[st|] tr] m1| | |]; [|done..].
  destruct (run (tstep hashlin_table 65 big_t) None (trunc 176 big_client) big_m) as [[[st'|] tr'] m2| | |]; [|done..].
  destruct H as ((p & d & h & ->) & H). by exists st, tr, m1, st', m2, p, d, h.
Qed.
Lemma ex_om_size : size ex_om = 4%nat.
Proof. vm_compute. done. Qed.
(** The removal of [ex_table_client] that compares with the element it removes, in a bucket of 3. *)
Lemma ex_remove_step (T : table) : T = hashtable_table ∨ T = hashlin_table → ∃ st tr m1 st' m2 es,
  run (tstep T 4 ex_t) None (trunc 12 ex_table_client) ex_m = Ok (Some st, tr) m1 ∧
  run (tstep T 4 ex_t) None (trunc 13 ex_table_client) ex_m =
    Ok (Some st', tr ++ [(TRemove ex_kany ex_any 9 5, TOFound 1000 [9; 1000])]) m2 ∧
  es = [Ent 1008 1000 5; Ent 2008 2000 5; Ent 3008 3000 (2 ^ 63 + 5); Ent 4008 4000 6] ∧ in_bucket T st es 5 = 3.
Proof.
  set (es := [Ent 1008 1000 5; Ent 2008 2000 5; Ent 3008 3000 (2 ^ 63 + 5); Ent 4008 4000 6]).
  intros HT. assert (H : match run (tstep T 4 ex_t) None (trunc 12 ex_table_client) ex_m, run (tstep T 4 ex_t) None (trunc 13 ex_table_client) ex_m with
    | Ok (Some st, tr) _, Ok (Some st', tr') _ => (∃ f g, tr' = tr ++ [(TRemove f g 9 5, TOFound 1000 [9; 1000])] ∧ f = ex_kany ∧ g = ex_any) ∧ in_bucket T st es 5 = 3
    | _, _ => False end).
  { destruct HT as [->| ->]; vm_compute; (split; [by eexists _, _|done]). }
  destruct (run (tstep T 4 ex_t) None (trunc 12 ex_table_client) ex_m) as [[[st|] tr] m1| | |]; [|done..].
  destruct (run (tstep T 4 ex_t) None (trunc 13 ex_table_client) ex_m) as [[[st'|] tr'] m2| | |]; [|done..].
  destruct H as ((f & g & -> & -> & ->) & H). by exists st, tr, m1, st', m2, es.
Qed.

(** The beginning of [ex_table_client], up to the visits: four insertions, three
    searches and a bucket. *)
Definition ex_search_client : prog top tout := trunc 10 ex_table_client.
Lemma ex_search_allowed : allowed (tpre ex_om ex_K) tpost (tstate0 ex_om ex_live) ex_search_client.
Proof. apply trunc_allowed, ex_table_allowed. Qed.
Lemma ex_search_looks : every tlooks ex_search_client ∧ every no_visit ex_search_client.
Proof. unfold ex_search_client, ex_table_client, ex_table_ops. cbn. repeat split; try done; (apply ex_find_looks || apply ex_any_looks). Qed.
Lemma ex_search_run T : T = hashdyn_table ∨ T = hashlin_table → ∃ l m' st,
  run_all (tstep T 4 ex_t) None ex_search_client ex_m = Ok l m' ∧ length l = 10%nat ∧ struct_after None l = Some st ∧
  in_bucket T st [Ent 1008 1000 5; Ent 2008 2000 5; Ent 3008 3000 (2 ^ 63 + 5); Ent 4008 4000 6] 5 = 3.
Proof.
  intros HT. assert (H : match run_all (tstep T 4 ex_t) None ex_search_client ex_m with Ok l _ => length l = 10%nat ∧ match struct_after None l with
    Some st => in_bucket T st [Ent 1008 1000 5; Ent 2008 2000 5; Ent 3008 3000 (2 ^ 63 + 5); Ent 4008 4000 6] 5 = 3 | None => False end | _ => False end).
  { destruct HT as [->| ->]; vm_compute; split; reflexivity. }
  destruct (run_all (tstep T 4 ex_t) None ex_search_client ex_m) as [l m'| | |]; [|done..]. destruct H as [H1 H2].
  destruct (struct_after None l) as [st|] eqn:E; [|done]. by exists l, m', st.
Qed.
