(** * Concrete memories and clients of the trie *)
From Verif Require Export TrieProps ExamplesTree ExamplesAlloc.
Global Open Scope Z_scope.

(** ** Clients that respect the preconditions, decided on the operations alone *)
Definition kcheck1 (free : gset Z) (es : list tent) (o : kop) : bool :=
  match o with
  | KInsert p _ k => bool_decide (p ∈ free ∧ 0 ≤ k < 2 ^ 32)
  | KRemove k | KSearch k | KBucket k => bool_decide (0 ≤ k < 2 ^ 32)
  | KRemoveExisting p => bool_decide (p ∈ te_p <$> es)
  | KCount => true
  end.
Definition kfree (free : gset Z) (es : list tent) (o : kop) : gset Z :=
  match o with
  | KInsert p _ _ => free ∖ {[p]}
  | KRemove k => match with_key k es with e :: _ => free ∪ {[te_p e]} | [] => free end
  | KRemoveExisting p => free ∪ {[p]}
  | _ => free
  end.
Lemma kcheck1_pre s o : kcheck1 (ks_free s) (ks_es s) o = true → kpre s o.
Proof. destruct o; simpl; intros H; try (by apply bool_decide_eq_true in H); done. Qed.
Lemma kfree_ok s o a s' : kpost s o a s' → ks_free s' = kfree (ks_free s) (ks_es s) o.
Proof.
  destruct s as [fr es]. destruct o; simpl.
  - by intros [_ ->].
  - intros [(es1 & e & es2 & -> & Hk & HF & _ & ->)|(HF & _ & ->)]; simpl.
    + rewrite with_key_app with_key_Forall //= with_key_cons decide_True //.
    + rewrite with_key_Forall //.
  - by intros (? & ? & ? & ? & _ & _ & ->).
  - by intros [_ ->].
  - by intros [_ ->].
  - by intros [_ ->].
Qed.

(** Operations of a client that holds one block [p] of the allocator. *)
Inductive cop := CK (o : kop) | CUsage | CAllocUsage | CWrite (j v : Z) | CFree | CDone.
Definition cop_at (p : Z) (o : cop) : xop :=
  match o with
  | CK o => XOp o | CUsage => XUsage | CAllocUsage => XAllocUsage
  | CWrite j v => XWrite p j v | CFree => XFree p | CDone => XDone
  end.
Fixpoint ccheck (free : gset Z) (es : list tent) (held : bool) (ops : list cop) : bool :=
  match ops with
  | [] => true
  | CK o :: ops => kcheck1 free es o && ccheck (kfree free es o) (kset_step es o) held ops
  | CUsage :: ops | CAllocUsage :: ops => ccheck free es held ops
  | CWrite j _ :: ops => held && bool_decide (0 ≤ j < 8) && ccheck free es held ops
  | CFree :: ops => held && ccheck free es false ops
  | CDone :: ops => match ops with [] => true | _ => false end
  end.

Lemma ccheck_allowed p ops : ∀ free es held s,
  ccheck free es held ops = true → kok (xs_k s) → ks_free (xs_k s) = free → ks_es (xs_k s) = es →
  (∃ bl, xs_cfg s = Some (64, bl) ∧ (held = true → p ∈ bl)) → allowed xpre xpost s (prog_of_list (cop_at p <$> ops)).
Proof.
  induction ops as [|o ops IH]; intros free es held s; [done|]. intros Hc Hok <- <- (bl & Hcfg & Hp).
  destruct o as [o| | |j v| | ]; simpl in Hc; rewrite fmap_cons /=.
  - apply andb_prop in Hc as [Hc1 Hc2]. pose proof (kcheck1_pre _ _ Hc1) as Hpre. split; [by rewrite Hcfg|].
    intros a s' (k' & Hpost & ->). destruct (kstep_ok _ _ _ _ Hok Hpre Hpost) as (H1 & H2 & H3).
    eapply IH; [exact Hc2|done|by eapply kfree_ok|done|]. exists bl. done.
  - split; [by rewrite Hcfg|]. intros a s' [_ ->]. eapply IH; eauto.
  - split; [by rewrite Hcfg|]. intros a s' (? & ? & _ & _ & ->). eapply IH; eauto.
  - apply andb_prop in Hc as [[H1 H2%bool_decide_eq_true]%andb_prop Hc]. split; [by exists 64, bl; split; [done|split; [auto|done]]|].
    intros a s' [_ ->]. eapply IH; eauto.
  - apply andb_prop in Hc as [H1 Hc]. split; [by exists 64, bl; auto|]. intros a s' (bs & bl' & Hcfg' & _ & ->). rewrite Hcfg in Hcfg'. injection Hcfg' as <- <-.
    eapply IH; [exact Hc|done|done|done|]. eexists. done.
  - split; [by rewrite Hcfg|]. intros a s' _. destruct ops; [|done]. exact I.
Qed.

(** ** A memory: four objects, and the bucket array at address 264 *)
Definition ex_tb : Z := 264.
Definition ex_trie_m : mem :=
  <[HCTL := Ctl (HeapCtl ex_live (fun n => 8192 + 16384 * Z.of_nat n) 0)]> (
  list_to_map ((fun a => (a, U)) <$> (po ← ex_objs; obj_cells po.2) ++ node_cells 32 ex_tb)).
Lemma ex_trie_cells : Forall (λ a, ex_trie_m !! a = Some U) ((po ← ex_objs; obj_cells po.2) ++ node_cells 32 ex_tb).
Proof. vm_compute ((po ← ex_objs; obj_cells po.2) ++ _). repeat constructor. Qed.
Lemma ex_trie_start : trie_start ex_om ex_tb ex_live ex_trie_m.
Proof.
  pose proof ex_trie_cells as HF. rewrite Forall_forall in HF. split; [apply ex_client_ok|split].
  - decide_by_compute.
  - intros a Ha. exists U. split; [apply HF, elem_of_app; by left|by left].
  - intros a Ha. exists U. split; [apply HF, elem_of_app; by right|by left].
  - eexists. split; [apply lookup_insert|done].
Qed.

(** Keys 4 and 5 differ in the last digit only, so that they need a block on
    every level; 5 is inserted twice.  The client also allocates a block from
    the allocator of the trie, writes to it and frees it. *)
Definition ex_trie_ops : list cop :=
  [CK (KInsert 1008 1000 5); CK (KInsert 2008 2000 (2 ^ 31)); CUsage; CK (KInsert 3008 3000 4); CUsage; CAllocUsage;
   CK (KInsert 4008 4000 5); CK KCount; CWrite 7 99; CK (KSearch 5); CK (KBucket 5); CK (KSearch 6);
   CK (KBucket (2 ^ 32 - 1)); CK (KRemove 5); CK (KBucket 5); CK (KRemove 6); CFree; CUsage;
   CK (KRemoveExisting 3008); CUsage; CK (KSearch 5); CK (KRemove (2 ^ 31)); CK (KRemove 5); CUsage; CAllocUsage; CDone].
Definition ex_trie_client : prog xop kout :=
  Do (XInit 64 64) (fun _ => Do XAlloc (fun a => match a with KWord p => prog_of_list (cop_at p <$> ex_trie_ops) | _ => Done end)).

Lemma ex_trie_check : ccheck (dom ex_om) [] true ex_trie_ops = true.
Proof. vm_compute. exact eq_refl. Qed.
Lemma ex_trie_allowed : allowed xpre xpost (xstate0 ex_om ex_live) ex_trie_client.
Proof.
  unfold ex_trie_client. cbn [allowed]. split.
  { simpl. split; [done|]. split; [lia|]. split; [by right|]. split; [done|]. by apply (fits_align16 64 64). }
  intros _ _ [_ ->]. split; [by eexists|]. intros a s' (bs & bl & p & [= <- <-] & -> & Hp & ->).
  eapply ccheck_allowed; [exact ex_trie_check| |done|done|].
  - split; [constructor|]. intros x _ Hx. by apply elem_of_nil in Hx.
  - exists ({[p]} ∪ ∅). split; [done|]. intros _. set_solver.
Qed.

Definition ex_trie_answers : list kout :=
  match run (xstep 10 ex_tb) None ex_trie_client ex_trie_m with Ok r _ => r.2.*2 | _ => [] end.
Lemma ex_trie_run : ex_trie_answers =
  [KNone; KWord 12160; KNone; KNone; KWord 64; KNone; KWord 736; KWord 704; KNone; KWord 4; KNone; KWord 1000;
   KNodes [(1008, 1000); (4008, 4000)]; KWord 0; KNodes []; KWord 1000; KNodes [(4008, 4000)]; KWord 0; KNone;
   KWord 736; KWord 3000; KWord 64; KWord 4000; KWord 2000; KWord 4000; KWord 0; KWord 0; KNone].
Proof. vm_compute. reflexivity. Qed.

Definition ex_trie_fuel (fuel : nat) : bool :=
  match run (xstep fuel ex_tb) None ex_trie_client ex_trie_m with Fuel => true | _ => false end.
Lemma ex_trie_fuels : ex_trie_fuel 9 = true ∧ ex_trie_fuel 10 = false.
Proof. vm_compute. done. Qed.
