(** * Histories beside the memory of others. *)
From Verif Require Export AccessTrie AccessTree.
From Verif Require ListHist HashTblProof HashDynProof HashLinProof ArrayHist ArrayProof ArrayOfProof ArrayBlkProof AllocHist TrieHist InpHist TreeHist.
Global Open Scope Z_scope.

Definition own_same A F FL (c : M A) m : Prop := accesses_own F FL c m ∧ same_alone F FL c m.

(** Steps that are local whatever the struct holds *)
Lemma run_own_all {op out cst} (step : cst → op → M (cst * out)) (P : op → Prop) F FL c cs m φ :
  (∀ cs o, P o → local F FL (step cs o)) → every P c → words_aligned m → foreign F FL m → safe (run step cs c m) φ →
  own_same _ F FL (run step cs c) m.
Proof.
  intros Hst Hev Hw Hf Hs. eapply (run_own step F FL (λ _, True) P); [|done..]. intros cs' o _ Ho. split; [by apply Hst|done].
Qed.
Lemma every_True {op out} (c : prog op out) : every (λ _, True) c.
Proof. induction c as [|o k IH]; simpl; [done|]. split; [done|]. intros. apply IH. Qed.
Lemma succeeds_safe {A} (r : res A) φ : succeeds r φ → safe r φ.
Proof. by destruct r. Qed.

Lemma list_own : list_beside own_same.
Proof.
  intros om K ls t live m fuel c F FL Hs Hf Ha Hl Hw Hfo.
  eapply run_own_all; [|exact Hl|done|done|eapply succeeds_safe, ListHist.list_history; done].
  intros. by apply local_lstep.
Qed.
Lemma hashtable_own : table_beside own_same hashtable_table.
Proof.
  intros om K t live m fuel c F FL Hs Hf Ha Hl Hw Hfo.
  eapply run_own_all; [|exact Hl|done|done|eapply HashTblProof.hashtable_history; done].
  intros. by apply local_hashtable_step.
Qed.
Lemma hashdyn_own : table_beside own_same hashdyn_table.
Proof.
  intros om K t live m fuel c F FL Hs Hf Ha Hl Hw Hfo.
  eapply run_own_all; [|exact Hl|done|done|eapply HashDynProof.hashdyn_history; done].
  intros. by apply local_hashdyn_step.
Qed.
Lemma hashlin_own : table_beside own_same hashlin_table.
Proof.
  intros om K t live m fuel c F FL Hs Hf Ha Hl Hw Hfo.
  eapply run_own_all; [|exact Hl|done|done|eapply HashLinProof.hashlin_history; done].
  intros. by apply local_hashlin_step.
Qed.
Lemma array_own : array_beside own_same array_a.
Proof.
  intros live m c F FL Hs Ha Hw Hfo.
  eapply run_own_all; [|apply every_True|done|done|eapply (ArrayHist.array_history array_a ArrayProof.array_inv); [apply @ArrayProof.array_ok|done..]].
  intros. apply local_array_step.
Qed.
Lemma arrayof_own : array_beside own_same arrayof_a.
Proof.
  intros live m c F FL Hs Ha Hw Hfo.
  eapply run_own_all; [|apply every_True|done|done|eapply (ArrayHist.array_history arrayof_a ArrayOfProof.arrayof_inv); [apply @ArrayOfProof.arrayof_ok|done..]].
  intros. apply local_arrayof_step.
Qed.
Lemma arrayblk_own : array_beside own_same arrayblk_a.
Proof.
  intros live m c F FL Hs Ha Hw Hfo.
  eapply run_own_all; [|apply every_True|done|done|eapply (ArrayHist.array_history arrayblk_a ArrayBlkProof.arrayblk_inv); [apply @ArrayBlkProof.arrayblk_ok|done..]].
  intros. apply local_arrayblk_step.
Qed.
Lemma arrayblkof_own : array_beside own_same arrayblkof_a.
Proof.
  intros live m c F FL Hs Ha Hw Hfo.
  eapply run_own_all; [|apply every_True|done|done|eapply (ArrayHist.array_history arrayblkof_a ArrayBlkProof.arrayblkof_inv); [apply @ArrayBlkProof.arrayblkof_ok|done..]].
  intros. apply local_arrayblkof_step.
Qed.
Lemma allocator_own : allocator_beside own_same.
Proof.
  intros live m c F FL Hs Ha Hw Hfo.
  eapply run_own_all; [|apply every_True|done|done|eapply AllocHist.alloc_history; done].
  intros. apply local_pstep.
Qed.
Lemma trie_own : trie_beside own_same.
Proof.
  intros om tb live m fuel c F FL Hs Hf Ha Hw Hfo.
  eapply run_own_all; [|apply every_True|done|done|eapply TrieHist.trie_history; done].
  intros. apply local_xstep.
Qed.
Lemma inp_own : inp_beside own_same.
Proof.
  intros om tb m fuel c F FL Hs Hf Ha Hw Hfo.
  eapply run_own_all; [|apply every_True|done|done|eapply succeeds_safe, InpHist.inp_history; done].
  intros. apply local_istep.
Qed.
Lemma tree_own : tree_beside own_same.
Proof.
  intros om K D t live m fuel c F FL Hs Hf Ha Hl Hw Hfo.
  eapply (run_own _ F FL (struct_looks F FL) trlooks); [|exact Hl|done|done|done|eapply succeeds_safe, TreeHist.tree_history; done].
  intros cs o Hcs Ho. by apply local_trstep.
Qed.

(** The two halves *)
Section halves.
  Variable P : ∀ A, mem → gmap Z region → M A → mem → Prop.
  Hypothesis HP : ∀ A F FL c m, own_same A F FL c m → P A F FL c m.
  Lemma list_half : list_beside P.
  Proof using HP. repeat intro. apply HP. by eapply list_own. Qed.
  Lemma table_half T : table_beside own_same T → table_beside P T.
  Proof using HP. intros H. repeat intro. apply HP. by eapply H. Qed.
  Lemma array_half T : array_beside own_same T → array_beside P T.
  Proof using HP. intros H. repeat intro. apply HP. by eapply H. Qed.
  Lemma allocator_half : allocator_beside P.
  Proof using HP. repeat intro. apply HP. by eapply allocator_own. Qed.
  Lemma trie_half : trie_beside P.
  Proof using HP. repeat intro. apply HP. by eapply trie_own. Qed.
  Lemma inp_half : inp_beside P.
  Proof using HP. repeat intro. apply HP. by eapply inp_own. Qed.
  Lemma tree_half : tree_beside P.
  Proof using HP. repeat intro. apply HP. by eapply tree_own. Qed.
End halves.
Lemma half1 A F FL (c : M A) m : own_same A F FL c m → accesses_own F FL c m.
Proof. by intros [? _]. Qed.
Lemma half2 A F FL (c : M A) m : own_same A F FL c m → same_alone F FL c m.
Proof. by intros [_ ?]. Qed.
