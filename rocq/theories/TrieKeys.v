(** * Elements of a trie by key: facts shared by both tries. *)
From Verif Require Export TrieSpec ListProof.
Global Open Scope Z_scope.

Definition toel (e : tent) : elem := El (te_p e) (te_d e) (W (te_k e)).

Lemma with_key_app k es es' : with_key k (es ++ es') = with_key k es ++ with_key k es'.
Proof. apply filter_app. Qed.
Lemma with_key_cons k e es : with_key k (e :: es) = if decide (te_k e = k) then e :: with_key k es else with_key k es.
Proof. rewrite /with_key filter_cons. done. Qed.
Lemma with_key_nil k es : with_key k es = [] → Forall (λ e, te_k e ≠ k) es.
Proof.
  intros H. apply Forall_forall. intros e He Hk. assert (Hin : e ∈ with_key k es) by (by apply elem_of_list_filter).
  rewrite H in Hin. by apply elem_of_nil in Hin.
Qed.
Lemma with_key_none k es : Forall (λ e, te_k e ≠ k) es → with_key k es = [].
Proof. induction 1 as [|e es He HF IH]; [done|]. rewrite with_key_cons decide_False //. Qed.
Lemma with_key_first k es e l : with_key k es = e :: l →
  ∃ es1 es2, es = es1 ++ e :: es2 ∧ te_k e = k ∧ Forall (λ e, te_k e ≠ k) es1 ∧ with_key k es2 = l.
Proof.
  induction es as [|e0 es IH]; [done|]. rewrite with_key_cons. destruct (decide (te_k e0 = k)) as [He|He].
  - intros [= -> <-]. by exists [], es.
  - intros (es1 & es2 & -> & H1 & H2 & H3)%IH. exists (e0 :: es1), es2. split; [done|]. split; [done|]. split; [by constructor|done].
Qed.
Lemma elem_of_keys k es : k ∈ keys es ↔ ∃ e, e ∈ es ∧ te_k e = k.
Proof. rewrite /keys elem_of_list_to_set elem_of_list_fmap. naive_solver. Qed.

(** The pure part of the invariant. *)
Definition es_ok (om : objmap) (fr : gset Z) (es : list tent) : Prop :=
  NoDup (te_p <$> es) ∧ (∀ e, e ∈ es → te_p e ∉ fr) ∧ Forall (λ e, 0 ≤ te_k e < 2 ^ 32) es ∧
  Forall (λ e, te_p e ∈ dom om) es ∧ fr ⊆ dom om.

Lemma es_ok_insert om fr es p d k : es_ok om fr es → p ∈ fr → 0 ≤ k < 2 ^ 32 →
  es_ok om (fr ∖ {[p]}) (es ++ [TEnt p d k]).
Proof.
  intros (H1 & H2 & H3 & H4 & H5) Hp Hk. split_and!.
  - rewrite fmap_app. apply NoDup_app. split; [done|]. split; [|apply NoDup_singleton].
    intros q (e & -> & He)%elem_of_list_fmap. csimpl. intros Hq%elem_of_list_singleton. apply (H2 e He). by rewrite Hq.
  - intros e [He| ->%elem_of_list_singleton]%elem_of_app; [specialize (H2 e He)|simpl]; set_solver.
  - apply Forall_app. split; [done|]. by constructor; [|constructor].
  - apply Forall_app. split; [done|]. constructor; [simpl; set_solver|constructor].
  - set_solver.
Qed.
Lemma es_ok_remove om fr es1 e es2 : es_ok om fr (es1 ++ e :: es2) → es_ok om (fr ∪ {[te_p e]}) (es1 ++ es2).
Proof.
  intros (H1 & H2 & H3 & H4 & H5). rewrite fmap_app fmap_cons -Permutation_middle in H1. apply NoDup_cons in H1 as [H0 H1]. split_and!.
  - by rewrite fmap_app.
  - intros e' He' [Hin| Hin%elem_of_singleton]%elem_of_union; [apply (H2 e'); [set_solver|done]|].
    apply H0. rewrite -fmap_app -Hin. by apply elem_of_list_fmap_1.
  - apply Forall_app in H3 as [H3 H3']. inversion H3'; subst. by apply Forall_app.
  - apply Forall_app in H4 as [H4 H4']. inversion H4'; subst. by apply Forall_app.
  - apply Forall_app in H4 as [H4 H4']. inversion H4'; subst. set_solver.
Qed.
Lemma es_ok_length om fr es : es_ok om fr es → (length es ≤ size om)%nat.
Proof.
  intros (H1 & _ & _ & H4 & _). rewrite -(fmap_length te_p) -size_dom. change (size (dom om)) with (length (elements (dom om))).
  apply submseteq_length, NoDup_submseteq; [done|]. intros p (e & -> & He)%elem_of_list_fmap. apply elem_of_elements.
  rewrite Forall_forall in H4. by apply H4.
Qed.
Lemma es_ok_clear om fr es : es_ok om fr es → es_ok om (fr ∪ list_to_set (te_p <$> es)) [].
Proof.
  intros (H1 & H2 & H3 & H4 & H5). split_and!; [constructor|by intros e He%elem_of_nil|constructor|constructor|].
  apply union_subseteq. split; [done|]. intros p (e & -> & He)%elem_of_list_to_set%elem_of_list_fmap. rewrite Forall_forall in H4. by apply H4.
Qed.
Lemma es_ok_unique om fr es1 e es2 e' : es_ok om fr (es1 ++ e :: es2) → e' ∈ es1 ++ e :: es2 → te_p e' = te_p e → e' = e.
Proof.
  intros (H1 & _) He Hp. rewrite fmap_app fmap_cons -Permutation_middle in H1. apply NoDup_cons in H1 as [H0 _].
  assert (e' = e ∨ e' ∈ es1 ++ es2) as [->|Hin] by set_solver; [done|]. exfalso. apply H0. rewrite -fmap_app -Hp. by apply elem_of_list_fmap_1.
Qed.

(** ** What the operations do, from the operations alone *)
Definition kok (s : kstate) : Prop :=
  NoDup (te_p <$> ks_es s) ∧ ∀ p, p ∈ ks_free s → p ∉ te_p <$> ks_es s.

Lemma remove_first_none k es : Forall (λ e, te_k e ≠ k) es → remove_first k es = es.
Proof. induction 1 as [|e es He _ IH]; [done|]. simpl. rewrite decide_False // IH //. Qed.
Lemma remove_first_split k es1 e es2 : Forall (λ e, te_k e ≠ k) es1 → te_k e = k → remove_first k (es1 ++ e :: es2) = es1 ++ es2.
Proof. intros H1 He. induction H1 as [|x es1 Hx _ IH]; simpl; [by rewrite decide_True|]. rewrite decide_False // IH //. Qed.
Lemma with_key_Forall k es : Forall (λ e, te_k e ≠ k) es → with_key k es = [].
Proof. induction 1 as [|e es He _ IH]; [done|]. rewrite with_key_cons decide_False //. Qed.

Lemma filter_node_split p es1 e es2 : te_p e = p → NoDup (te_p <$> es1 ++ e :: es2) →
  filter (λ e, te_p e ≠ p) (es1 ++ e :: es2) = es1 ++ es2 ∧ filter (λ e, te_p e = p) (es1 ++ e :: es2) = [e].
Proof.
  intros Hp Hnd. rewrite fmap_app fmap_cons in Hnd. apply NoDup_app in Hnd as (_ & H1 & [H2 _]%NoDup_cons).
  assert (Hne : ∀ x, x ∈ es1 ∨ x ∈ es2 → te_p x ≠ p).
  { intros x [Hx|Hx] <-.
    - apply (H1 (te_p x)); [by apply elem_of_list_fmap_1|]. rewrite Hp. by left.
    - apply H2. rewrite Hp. by apply elem_of_list_fmap_1. }
  assert (Ha : ∀ l, (∀ x, x ∈ l → te_p x ≠ p) → filter (λ e, te_p e ≠ p) l = l ∧ filter (λ e, te_p e = p) l = []).
  { intros l. induction l as [|x l IH]; [done|]. intros Hl. destruct IH as [IH1 IH2]; [intros y Hy; apply Hl; by right|].
    assert (te_p x ≠ p) by (apply Hl; by left). rewrite !filter_cons decide_True // decide_False // IH1 IH2. done. }
  destruct (Ha es1) as [E1 E2]; [auto|]. destruct (Ha es2) as [E3 E4]; [auto|].
  rewrite !filter_app !filter_cons decide_False; [|tauto]. rewrite decide_True // E1 E2 E3 E4. done.
Qed.

Lemma kok_remove fr es1 e es2 : kok (KState fr (es1 ++ e :: es2)) → kok (KState (fr ∪ {[te_p e]}) (es1 ++ es2)).
Proof.
  intros [Hnd Hfr]. simpl in *. rewrite fmap_app fmap_cons in Hnd Hfr. rewrite /kok /= fmap_app.
  assert (Hp : te_p <$> es1 ++ e :: es2 ≡ₚ te_p e :: (te_p <$> es1 ++ es2)).
  { rewrite !fmap_app fmap_cons. symmetry. apply Permutation_middle. }
  rewrite fmap_app fmap_cons in Hp. rewrite Hp in Hnd. apply NoDup_cons in Hnd as [Hn Hnd]. rewrite fmap_app in Hn Hnd. split; [done|].
  intros p [Hp1| ->%elem_of_singleton]%elem_of_union; [|done]. specialize (Hfr p Hp1). set_solver.
Qed.

Lemma kstep_ok s o a s' : kok s → kpre s o → kpost s o a s' →
  kok s' ∧ ks_es s' = kset_step (ks_es s) o ∧ a = kanswer (ks_es s) o.
Proof.
  destruct s as [fr es]. intros Hok Hpre Hpost. destruct o as [p d k|k|p|k|k| ]; simpl in *.
  - destruct Hpost as [-> ->]. split; [|done]. destruct Hok as [Hnd Hfr]. simpl in *. destruct Hpre as [Hp _]. split; simpl.
    + rewrite fmap_app. apply NoDup_app. split; [done|]. split; [|apply NoDup_singleton]. intros x Hx ->%elem_of_list_singleton. by apply (Hfr p).
    + intros q [Hq Hne]%elem_of_difference. rewrite fmap_app. intros [Hin|Hin]%elem_of_app; [by apply (Hfr q)|]. set_solver.
  - destruct Hpost as [(es1 & e & es2 & -> & Hk & HF & -> & ->)|(HF & -> & ->)]; simpl.
    + split; [by apply kok_remove|]. rewrite remove_first_split //. split; [done|]. rewrite with_key_app with_key_Forall //= with_key_cons decide_True //.
    + split; [done|]. rewrite remove_first_none // with_key_Forall //.
  - destruct Hpost as (es1 & d & k & es2 & -> & -> & ->). simpl.
    destruct (filter_node_split p es1 (TEnt p d k) es2 eq_refl) as [-> ->]; [by destruct Hok|]. split; [|done]. by apply (kok_remove fr es1 (TEnt p d k) es2).
  - destruct Hpost as [-> ->]. done.
  - destruct Hpost as [-> ->]. done.
  - destruct Hpost as [-> ->]. done.
Qed.
