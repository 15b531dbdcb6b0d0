(** * A concrete memory and client of the inplace trie *)
From Verif Require Export InpProps ExamplesTrie.
Global Open Scope Z_scope.

Definition iex_objs : list (Z * (Z * nat)) :=
  [(1008, (1000, 10%nat)); (2008, (2000, 10%nat)); (3008, (3000, 10%nat)); (4008, (4000, 10%nat));
   (5008, (5000, 10%nat)); (6008, (6000, 10%nat)); (7008, (7000, 10%nat)); (8008, (8000, 10%nat));
   (9008, (9000, 10%nat)); (10008, (10000, 10%nat)); (11008, (11000, 10%nat)); (12008, (12000,
   10%nat)); (13008, (13000, 10%nat)); (14008, (14000, 10%nat)); (15008, (15000, 10%nat))].
Definition iex_om : objmap := list_to_map iex_objs.
Definition iex_m : mem := list_to_map ((fun a => (a, U)) <$> (po ← iex_objs; obj_cells po.2) ++ node_cells 64 ex_tb).

Lemma iex_client_ok others : NoDup (others ++ (po ← iex_objs; obj_cells po.2)) →
  ∀ m, (∀ a, a ∈ (po ← iex_objs; obj_cells po.2) → ∃ c, m !! a = Some c ∧ wordcell c) →
  client_ok 8 iex_om others m.
Proof.
  intros Hnd m Hm.
  assert (Hp : objs_cells iex_om ≡ₚ (po ← iex_objs; obj_cells po.2)).
  { unfold objs_cells, iex_om. rewrite map_to_list_to_map; decide_by_compute. }
  split; [|split].
  - intros p o Ho. unfold iex_om in Ho. apply elem_of_list_to_map_2 in Ho.
    assert (HF : Forall (λ po : Z * (Z * nat), 0 < po.1 ∧ po.1 mod 8 = 0 ∧ po.1 + 8 * Z.of_nat 8 ≤ 2 ^ 64 ∧
      Forall (λ a, a ∈ obj_cells po.2) (node_cells 8 po.1)) iex_objs) by decide_by_compute.
    rewrite Forall_forall in HF. destruct (HF _ Ho) as (H1 & H2 & H3 & H4). rewrite Forall_forall in H4. done.
  - by rewrite Hp.
  - intros a. rewrite Hp. apply Hm.
Qed.
Lemma iex_cells : Forall (λ a, iex_m !! a = Some U) ((po ← iex_objs; obj_cells po.2) ++ node_cells 64 ex_tb).
Proof. vm_compute ((po ← iex_objs; obj_cells po.2) ++ _). repeat constructor. Qed.
Lemma iex_start : inp_start iex_om ex_tb iex_m.
Proof.
  pose proof iex_cells as HF. rewrite Forall_forall in HF. split; [apply iex_client_ok|].
  - decide_by_compute.
  - intros a Ha. exists U. split; [apply HF, elem_of_app; by left|by left].
  - intros a Ha. exists U. split; [apply HF, elem_of_app; by right|by left].
Qed.

Fixpoint icheck (free : gset Z) (es : list tent) (ini : bool) (ops : list iop) : bool :=
  match ops with
  | [] => true
  | IInit :: ops => icheck (free ∪ list_to_set (te_p <$> es)) [] true ops
  | IOp o :: ops => ini && kcheck1 free es o && icheck (kfree free es o) (kset_step es o) true ops
  | IUsage :: ops => ini && icheck free es ini ops
  end.
Lemma icheck_allowed ops : ∀ s, icheck (ks_free (is_k s)) (ks_es (is_k s)) (is_init s) ops = true → kok (is_k s) →
  allowed ipre ipost s (prog_of_list ops).
Proof.
  induction ops as [|o ops IH]; intros s; [done|]. intros Hc Hok. destruct o as [|o|]; simpl in Hc |- *.
  - split; [done|]. intros a s' [_ ->]. apply IH; [done|]. split; [constructor|]. intros p _ Hp. by apply elem_of_nil in Hp.
  - apply andb_prop in Hc as [[H0 Hc1]%andb_prop Hc2]. pose proof (kcheck1_pre _ _ Hc1) as Hpre. split; [done|].
    intros a s' (k' & Hpost & ->). destruct (kstep_ok _ _ _ _ Hok Hpre Hpost) as (H1 & H2 & H3).
    apply IH; [|done]. simpl. by rewrite H2 (kfree_ok _ _ _ _ Hpost).
  - apply andb_prop in Hc as [Hi Hc]. split; [done|]. intros a s' [_ ->]. by apply IH.
Qed.

(** 5 is the root of its bucket, 4 below it, 6 below 4.  Removing 5 moves the
    leaf 6 to the root; removing the first 4 moves its map to the second 4. *)
Definition iex_ops : list iop :=
  [IInit; IOp (KInsert 1008 1000 5); IOp (KInsert 2008 2000 4); IOp (KInsert 3008 3000 6); IOp (KInsert 4008 4000 4);
   IOp (KInsert 5008 5000 (2 ^ 32 - 1)); IOp KCount; IUsage; IOp (KBucket 4); IOp (KRemove 5); IOp (KSearch 5);
   IOp (KSearch 4); IOp (KSearch 6); IOp (KRemove 7); IOp (KInsert 1008 1000 7); IOp (KRemoveExisting 2008); IOp (KBucket 4);
   IOp (KSearch 6); IOp (KRemove 6); IOp (KBucket 4); IOp (KSearch (2 ^ 32 - 1)); IOp (KRemove 4); IOp (KRemove 4); IOp (KSearch 7);
   IOp KCount; IInit; IOp (KSearch 7); IOp (KInsert 1008 1000 3); IOp (KRemoveExisting 1008); IUsage].
Lemma iex_allowed : allowed ipre ipost (istate0 iex_om) (prog_of_list iex_ops).
Proof.
  apply icheck_allowed; [vm_compute; exact eq_refl|]. split; [constructor|]. intros p _ Hp. by apply elem_of_nil in Hp.
Qed.
Definition iex_answers : list kout :=
  match run (istep 14 ex_tb) None (prog_of_list iex_ops) iex_m with Ok r _ => r.2.*2 | _ => [] end.
Lemma iex_run : iex_answers =
  [KNone; KNone; KNone; KNone; KNone; KNone; KWord 5; KWord 320; KNodes [(2008, 2000); (4008, 4000)];
   KWord 1000; KWord 0; KWord 2000; KWord 3000; KWord 0; KNone; KWord 2000; KNodes [(4008, 4000)];
   KWord 3000; KWord 3000; KNodes [(4008, 4000)]; KWord 5000; KWord 4000; KWord 0; KWord 1000;
   KWord 2; KNone; KWord 0; KNone; KWord 1000; KWord 0].
Proof. vm_compute. reflexivity. Qed.

(** Every key goes below the ones before it; the search for 0 passes 14 of them. *)
Definition deep_ops : list iop :=
  [IInit; IOp (KInsert 1008 1000 16777216); IOp (KInsert 2008 2000 33554432); IOp (KInsert 3008 3000 4194304);
   IOp (KInsert 4008 4000 1048576); IOp (KInsert 5008 5000 262144); IOp (KInsert 6008 6000 65536); IOp
   (KInsert 7008 7000 16384); IOp (KInsert 8008 8000 4096); IOp (KInsert 9008 9000 1024); IOp (KInsert 10008
   10000 256); IOp (KInsert 11008 11000 64); IOp (KInsert 12008 12000 16); IOp (KInsert 13008 13000 4); IOp
   (KInsert 14008 14000 1); IOp (KInsert 15008 15000 0); IOp (KSearch 0); IOp (KRemove 0)].
Lemma deep_allowed : allowed ipre ipost (istate0 iex_om) (prog_of_list deep_ops).
Proof.
  apply icheck_allowed; [vm_compute; exact eq_refl|]. split; [constructor|]. intros p _ Hp. by apply elem_of_nil in Hp.
Qed.
Definition deep_last (fuel : nat) : option kout :=
  match run (istep fuel ex_tb) None (prog_of_list deep_ops) iex_m with Ok r _ => last r.2.*2 | _ => None end.
Definition deep_fuel (fuel : nat) : bool :=
  match run (istep fuel ex_tb) None (prog_of_list deep_ops) iex_m with Fuel => true | _ => false end.
Lemma deep_run : deep_last 14 = Some (KWord 15000) ∧ deep_fuel 13 = true.
Proof. vm_compute. done. Qed.
