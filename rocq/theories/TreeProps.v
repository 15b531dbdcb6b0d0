(** * Consequences of the history theorem of the tree. *)
From Verif Require Export ListHist TreeHist.
Global Open Scope Z_scope.

(** The state a transcript leads to. *)
Definition tgood (s : trstate) (cx : (Z → Z → Z) * list (Z * Z)) : Prop :=
  cx.2 ≡ₚ telems s ∧ NoDup (telems s).*1 ∧ (∀ p, p ∈ ts_free s → p ∉ (telems s).*1) ∧
  (∀ c xs, ts_tree s = Some (c, xs) → cx.1 = c ∧ total_preorder c ∧ increasing c xs).

Lemma correct_snoc {op out sst} (post : sst → op → out → sst → Prop) s tr o a s'' :
  correct post s (tr ++ [(o, a)]) s'' → ∃ s', correct post s tr s' ∧ post s' o a s''.
Proof.
  intros Hc. apply correct_app in Hc as (s1 & Hc1 & Hc2). inversion Hc2 as [|? ? ? s2 ? ? Hp Hc3]; subst.
  inversion Hc3; subst. eauto.
Qed.

Lemma tset_snoc ops o : tset (ops ++ [o]) = tset_step (tset ops) o.
Proof. by rewrite /tset foldl_app. Qed.

Lemma filter_all {A} (P : A → Prop) `{∀ x, Decision (P x)} (l : list A) : Forall P l → filter P l = l.
Proof. induction 1 as [|x l Hx Hl IH]; [done|]. rewrite filter_cons decide_True // IH //. Qed.

Lemma filter_one (P : Z * Z → Prop) `{∀ x, Decision (P x)} a x b :
  ¬ P x → (∀ y, y ∈ a ++ b → P y) → filter P (a ++ x :: b) = a ++ b.
Proof.
  intros Hx Hall. rewrite filter_app filter_cons decide_False // filter_all; [rewrite filter_all //|];
    apply Forall_forall; intros y Hy; apply Hall; set_solver.
Qed.

Lemma tgood_step om K D s o a s' cx : tgood s cx → trboth om K D s o a s' → tgood s' (tset_step cx o).
Proof.
  destruct cx as [c0 ys]. intros (Hp & Hnd & Hfr & Hc) [Hpre Hpost]. simpl in Hp, Hc.
  destruct o; simpl in Hpre, Hpost |- *.
  - destruct Hpost as [_ ->]. rewrite /tgood /telems /=. split; [done|]. split; [constructor|]. split; [set_solver|].
    intros ? ? [= <- <-]. split; [done|]. split; [apply Hpre|constructor].
  - destruct Hpost as (c & xs & z & calls & Hs & _ & _ & Hcase). destruct (Hc _ _ Hs) as (-> & Htp & Hinc).
    assert (Htel : telems s = xs) by by rewrite /telems Hs. rewrite Htel in Hp, Hnd, Hfr.
    destruct Hcase as [(q & Hq & Hz & ->)|(l & r & -> & Hl & Hr & -> & ->)].
    + rewrite decide_True.
      { split; [by rewrite Htel|]. rewrite Htel. split; [done|]. split; [done|]. intros ? ? Hs'. by apply Hc. }
      rewrite Hp. apply Exists_exists. exists (q, z). done.
    + rewrite decide_False.
      2:{ rewrite Hp. intros ([q e] & Hin & He)%Exists_exists. simpl in He. rewrite Forall_forall in Hl. rewrite Forall_forall in Hr.
          apply elem_of_app in Hin as [Hin|Hin].
          - apply Hl in Hin. simpl in Hin. apply (cmp_eq c Htp) in He. lia.
          - apply Hr in Hin. simpl in Hin. lia. }
      rewrite /tgood /telems /=. destruct Hpre as (_ & Hpf & _).
      split; [by rewrite Hp Permutation_middle|]. split.
      * rewrite fmap_app fmap_cons -Permutation_middle /=. constructor; [|by rewrite -fmap_app].
        rewrite -fmap_app. by apply Hfr.
      * split.
        -- intros q Hq. rewrite fmap_app fmap_cons -Permutation_middle /= -fmap_app. specialize (Hfr q). set_solver.
        -- intros ? ? [= <- <-]. split; [done|]. split; [done|]. by apply increasing_insert.
  - destruct Hpost as (c & xs & z & calls & Hs & _ & _ & Hcase). destruct (Hc _ _ Hs) as (-> & Htp & Hinc).
    assert (Htel : telems s = xs) by by rewrite /telems Hs. rewrite Htel in Hp, Hnd, Hfr.
    destruct Hcase as [(l & q & r & -> & Hz & ->)|(Hall & _ & ->)].
    + rewrite /tgood /telems /=. rewrite fmap_app fmap_cons -Permutation_middle /= -fmap_app in Hnd.
      apply NoDup_cons in Hnd as [Hq Hnd].
      split; [|split; [done|split]].
      * rewrite Hp filter_one; [done|simpl; auto|]. intros [p e] Hin. simpl. intros He.
        assert (Hez : c e z = 0).
        { destruct Htp as [Ha Ht]. pose proof (Ha e z). pose proof (Ha d z). pose proof (Ha d e).
          pose proof (Ht e d z). pose proof (Ht z d e). lia. }
        assert ((p, e) = (q, z)) as [= -> ->].
        { eapply increasing_unique; [exact Htp|exact Hinc| | |done]; set_solver. }
        apply Hq. apply (elem_of_list_fmap_1 fst _ _ Hin).
      * intros p [Hpf|Hpq]%elem_of_union; [|set_solver]. intros Hin. apply (Hfr p Hpf).
        rewrite fmap_app fmap_cons. rewrite fmap_app in Hin. set_solver.
      * intros ? ? [= <- <-]. split; [done|]. split; [done|]. by eapply increasing_remove.
    + rewrite /tgood Htel. split; [|done]. simpl. rewrite Hp filter_all //.
  - destruct Hpost as (c & l & d & r & calls & Hs & _ & _ & ->). destruct (Hc _ _ Hs) as (-> & Htp & Hinc).
    assert (Htel : telems s = l ++ (p, d) :: r) by by rewrite /telems Hs. rewrite Htel in Hp, Hnd, Hfr.
    rewrite /tgood /telems /=. rewrite fmap_app fmap_cons -Permutation_middle /= -fmap_app in Hnd.
    apply NoDup_cons in Hnd as [Hq Hnd].
    split; [|split; [done|split]].
    + rewrite Hp filter_one; [done|simpl; auto|]. intros [q e] Hin. simpl. intros ->. apply Hq. apply (elem_of_list_fmap_1 fst _ _ Hin).
    + intros q [Hpf|Hpq]%elem_of_union; [|set_solver]. intros Hin. apply (Hfr q Hpf).
      rewrite fmap_app fmap_cons. rewrite fmap_app in Hin. set_solver.
    + intros ? ? [= <- <-]. split; [done|]. split; [done|]. by eapply increasing_remove.
  - destruct Hpost as (c & xs & z & calls & Hs & _ & _ & -> & _). done.
  - destruct Hpost as (c & xs & z & calls & Hs & _ & _ & -> & _). done.
  - destruct Hpost as (c & xs & Hs & _ & ->). done.
  - destruct Hpost as (c & xs & Hs & _ & ->). done.
  - destruct Hpost as (c & xs & Hs & _ & ->). done.
  - destruct Hpost as (c & xs & Hs & _ & ->). done.
  - destruct Hpost as (c & xs & Hs & _ & ->). rewrite /tgood /telems /=. split; [done|]. split; [constructor|]. split; [set_solver|done].
Qed.

Lemma tgood_ok om K D live tr s : correct (trboth om K D) (trstate0 om live) tr s → tgood s (tset tr.*1).
Proof.
  revert s. induction tr as [|[o a] tr IH] using rev_ind; intros s Hc.
  - inversion Hc; subst. split; [done|]. split; [constructor|]. split; [set_solver|done].
  - apply correct_snoc in Hc as (s1 & Hc & Hp). rewrite fmap_app tset_snoc. eapply tgood_step; [by apply IH|exact Hp].
Qed.

Lemma thist_any (Q : gmap Z region → option treeS → list (trop * trout) → mem → Prop) :
  (∀ om K D live cs tr m', tree_end_both om K D live cs tr m' → Q live cs tr m') → after_any_tree_history Q.
Proof.
  intros HQ om K D t live m fuel c Hl Hf Ha. pose proof (tree_history_both om K D t live m fuel c Hl Hf Ha) as H.
  unfold succeeds in *. destruct (run (trstep fuel t) None c m) as [r m'| | |]; try done. eapply HQ, H.
Qed.

(** One operation of a history *)
Lemma thist_op {B} (mk : B → trop) (P : (Z → Z → Z) → list (Z * Z) → B → trout → Prop) :
  (∀ om K D s b a s' c ys, tgood s (c, ys) → trboth om K D s (mk b) a s' → P c ys b a) →
  after_any_tree_history (λ _ _ tr _, ∀ tr0 b a tr1, tr = tr0 ++ (mk b, a) :: tr1 → P (tset tr0.*1).1 (tset tr0.*1).2 b a).
Proof.
  intros HP. apply thist_any. intros om K D live cs tr m' (s & Hc & _) tr0 b a tr1 ->.
  apply correct_app in Hc as (s1 & Hc1 & Hc2). inversion Hc2 as [|? ? ? s2 ? ? Hp Hc3]; subst.
  eapply HP; [|exact Hp]. pose proof (tgood_ok _ _ _ _ _ _ Hc1) as Hg. by destruct (tset tr0.*1).
Qed.

Lemma few_calls_perm d xs ys calls : xs ≡ₚ ys → few_calls d xs calls → few_calls d ys calls.
Proof. intros Hp (zs & H1 & H2 & H3). exists zs. split; [done|]. split; [intros y Hy; rewrite -Hp; auto|by rewrite -Hp]. Qed.

Lemma tree_search_ok : after_any_tree_history (λ _ _ tr _, ∀ tr0 d a tr1, tr = tr0 ++ (TrSearch d, a) :: tr1 →
  let c := (tset tr0.*1).1 in let xs := (tset tr0.*1).2 in
  ∃ z calls, a = TrFound z calls ∧ few_calls d xs calls ∧
    ((∃ q, (q, z) ∈ xs ∧ c d z = 0) ∨ (Forall (λ x, c d x.2 ≠ 0) xs ∧ z = 0))).
Proof.
  apply (thist_op TrSearch (λ c xs d a, ∃ z calls, a = TrFound z calls ∧ few_calls d xs calls ∧
    ((∃ q, (q, z) ∈ xs ∧ c d z = 0) ∨ (Forall (λ x, c d x.2 ≠ 0) xs ∧ z = 0)))).
  intros ? ? ? s d a s' c0 ys (Hp & _ & _ & Hc) [_ Hpost]. simpl in *.
  destruct Hpost as (c1 & xs & z & calls & Hs & -> & Hfc & _ & Hcase). destruct (Hc _ _ Hs) as (-> & _).
  rewrite /telems Hs in Hp. exists z, calls. split; [done|]. split; [by eapply few_calls_perm|].
  destruct Hcase as [(q & Hq & Hz)|[HF ->]]; [left; exists q; by rewrite Hp|right; by rewrite Hp].
Qed.

Lemma tree_search_compare_ok : after_any_tree_history (λ _ _ tr _, ∀ tr0 ff f k a tr1, tr = tr0 ++ (TrSearchCompare ff f k, a) :: tr1 →
  let xs := (tset tr0.*1).2 in
  ∃ z calls, a = TrFound z calls ∧ few_calls k xs calls ∧
    ((∃ q, (q, z) ∈ xs ∧ f k z = 0) ∨ (Forall (λ x, f k x.2 ≠ 0) xs ∧ z = 0))).
Proof.
  apply thist_any. intros om K D live cs tr m' (s & Hc & _) tr0 ff f k a tr1 ->.
  apply correct_app in Hc as (s1 & Hc1 & Hc2). inversion Hc2 as [|? ? ? s2 ? ? Hp Hc3]; subst.
  pose proof (tgood_ok _ _ _ _ _ _ Hc1) as (Hperm & _). destruct Hp as [_ Hpost].
  destruct Hpost as (c1 & xs & z & calls & Hs & -> & Hfc & _ & Hcase).
  rewrite /telems Hs in Hperm. exists z, calls. split; [done|]. split; [by eapply few_calls_perm|].
  destruct Hcase as [(q & Hq & Hz)|[HF ->]]; [left; exists q; by rewrite Hperm|right; by rewrite Hperm].
Qed.

Lemma tree_insert_ok : after_any_tree_history (λ _ _ tr _, ∀ tr0 p d a tr1, tr = tr0 ++ (TrInsert p d, a) :: tr1 →
  let c := (tset tr0.*1).1 in let xs := (tset tr0.*1).2 in
  ∃ z calls, a = TrFound z calls ∧ few_calls d xs calls ∧
    ((∃ q, (q, z) ∈ xs ∧ c d z = 0) ∨ (Forall (λ x, c d x.2 ≠ 0) xs ∧ z = d))).
Proof.
  apply thist_any. intros om K D live cs tr m' (s & Hc & _) tr0 p d a tr1 ->.
  apply correct_app in Hc as (s1 & Hc1 & Hc2). inversion Hc2 as [|? ? ? s2 ? ? Hp Hc3]; subst.
  pose proof (tgood_ok _ _ _ _ _ _ Hc1) as (Hperm & _ & _ & Hct). destruct Hp as [_ Hpost].
  destruct Hpost as (c1 & xs & z & calls & Hs & -> & Hfc & Hcase). destruct (Hct _ _ Hs) as (-> & Htp & _).
  rewrite /telems Hs in Hperm. exists z, calls. split; [done|]. split; [by eapply few_calls_perm|].
  destruct Hcase as [(q & Hq & Hz & _)|(l & r & -> & Hl & Hr & -> & _)]; [left; exists q; by rewrite Hperm|right].
  split; [|done]. rewrite Hperm. apply Forall_app. split; (eapply Forall_impl; [eassumption|]); intros [q e]; simpl; intros He Hn; [|lia].
  apply (cmp_eq c1 Htp) in Hn. lia.
Qed.

Lemma tree_remove_ok : after_any_tree_history (λ _ _ tr _, ∀ tr0 d a tr1, tr = tr0 ++ (TrRemove d, a) :: tr1 →
  let c := (tset tr0.*1).1 in let xs := (tset tr0.*1).2 in let xs' := (tset (tr0.*1 ++ [TrRemove d])).2 in
  ∃ z calls, a = TrFound z calls ∧ few_calls d xs calls ∧
    ((∃ q, (q, z) :: xs' ≡ₚ xs ∧ c d z = 0) ∨ (Forall (λ x, c d x.2 ≠ 0) xs ∧ z = 0 ∧ xs' = xs))).
Proof.
  apply thist_any. intros om K D live cs tr m' (s & Hc & _) tr0 d a tr1 ->.
  apply correct_app in Hc as (s1 & Hc1 & Hc2). inversion Hc2 as [|? ? ? s2 ? ? Hp Hc3]; subst.
  pose proof (tgood_ok _ _ _ _ _ _ Hc1) as Hg. pose proof (tgood_step _ _ _ _ _ _ _ _ Hg Hp) as (Hperm' & _).
  destruct Hg as (Hperm & _ & _ & Hct). destruct Hp as [_ Hpost].
  destruct Hpost as (c1 & xs & z & calls & Hs & -> & Hfc & Hcase). destruct (Hct _ _ Hs) as (Hceq & Htp & _).
  rewrite /telems Hs in Hperm. rewrite tset_snoc. exists z, calls. split; [done|]. split; [by eapply few_calls_perm|].
  destruct Hcase as [(l & q & r & -> & Hz & ->)|(HF & -> & ->)]; [left; exists q|right].
  - rewrite Hceq. split; [|done]. simpl in Hperm'. rewrite Hperm' Hperm /telems /=. apply Permutation_middle.
  - rewrite Hceq. assert (HF' : Forall (λ x : Z * Z, c1 d x.2 ≠ 0) (tset tr0.*1).2) by by rewrite Hperm.
    split; [done|]. split; [done|]. rewrite -Hceq in HF'. destruct (tset tr0.*1) as [c0 ys]. simpl in *. by apply filter_all.
Qed.

Lemma tree_remove_existing_ok : after_any_tree_history (λ _ _ tr _, ∀ tr0 p a tr1, tr = tr0 ++ (TrRemoveExisting p, a) :: tr1 →
  let xs := (tset tr0.*1).2 in let xs' := (tset (tr0.*1 ++ [TrRemoveExisting p])).2 in
  ∃ d calls, a = TrFound d calls ∧ few_calls d xs calls ∧ (p, d) :: xs' ≡ₚ xs).
Proof.
  apply thist_any. intros om K D live cs tr m' (s & Hc & _) tr0 p a tr1 ->.
  apply correct_app in Hc as (s1 & Hc1 & Hc2). inversion Hc2 as [|? ? ? s2 ? ? Hp Hc3]; subst.
  pose proof (tgood_ok _ _ _ _ _ _ Hc1) as Hg. pose proof (tgood_step _ _ _ _ _ _ _ _ Hg Hp) as (Hperm' & _).
  destruct Hg as (Hperm & _ & _ & Hct). destruct Hp as [_ Hpost].
  destruct Hpost as (c1 & l & d & r & calls & Hs & -> & Hfc & ->).
  rewrite /telems Hs in Hperm. rewrite tset_snoc. exists d, calls. split; [done|]. split; [by eapply few_calls_perm|].
  rewrite Hperm' Hperm /telems /=. apply Permutation_middle.
Qed.

Lemma tree_count_ok : after_any_tree_history (λ _ _ tr _, ∀ tr0 a tr1,
  (tr = tr0 ++ (TrCount, a) :: tr1 → a = TrWord (Z.of_nat (length (tset tr0.*1).2))) ∧
  (tr = tr0 ++ (TrUsage, a) :: tr1 → a = TrWord (32 * Z.of_nat (length (tset tr0.*1).2)))).
Proof.
  apply thist_any. intros om K D live cs tr m' (s & Hc & _) tr0 a tr1.
  split; intros ->; apply correct_app in Hc as (s1 & Hc1 & Hc2); inversion Hc2 as [|? ? ? s2 ? ? Hp Hc3]; subst;
    pose proof (tgood_ok _ _ _ _ _ _ Hc1) as (Hperm & _); destruct Hp as [_ (c1 & xs & Hs & -> & _)];
    rewrite /telems Hs in Hperm; by rewrite Hperm.
Qed.

(** Every search, insertion and removal makes few comparisons. *)
Lemma tree_comparisons_ok : after_any_tree_history (λ _ _ tr _, ∀ tr0 o z calls tr1,
  tr = tr0 ++ (o, TrFound z calls) :: tr1 → ∃ d, few_calls d (tset tr0.*1).2 calls).
Proof.
  apply thist_any. intros om K D live cs tr m' (s & Hc & _) tr0 o z calls tr1 ->.
  apply correct_app in Hc as (s1 & Hc1 & Hc2). inversion Hc2 as [|? ? ? s2 ? ? Hp Hc3]; subst.
  pose proof (tgood_ok _ _ _ _ _ _ Hc1) as (Hperm & _). destruct Hp as [_ Hpost]. rewrite /telems in Hperm.
  destruct o; simpl in Hpost.
  - by destruct Hpost as [[=] _].
  - destruct Hpost as (? & ? & ? & ? & Hs & [= <- <-] & Hf & _). rewrite Hs in Hperm. eexists. by eapply few_calls_perm.
  - destruct Hpost as (? & ? & ? & ? & Hs & [= <- <-] & Hf & _). rewrite Hs in Hperm. eexists. by eapply few_calls_perm.
  - destruct Hpost as (? & ? & ? & ? & ? & Hs & [= <- <-] & Hf & _). rewrite Hs in Hperm. eexists. by eapply few_calls_perm.
  - destruct Hpost as (? & ? & ? & ? & Hs & [= <- <-] & Hf & _). rewrite Hs in Hperm. eexists. by eapply few_calls_perm.
  - destruct Hpost as (? & ? & ? & ? & Hs & [= <- <-] & Hf & _). rewrite Hs in Hperm. eexists. by eapply few_calls_perm.
  - by destruct Hpost as (? & ? & _ & [=] & _).
  - by destruct Hpost as (? & ? & _ & [=] & _).
  - by destruct Hpost as (? & ? & _ & [=] & _).
  - by destruct Hpost as (? & ? & _ & [=] & _).
  - by destruct Hpost as (? & ? & _ & [=] & _).
Qed.

(** What is in memory at the end of a history *)
Lemma tree_elements_ok : after_any_tree_history (λ _ cs tr m', ∀ st, cs = Some st →
  ∃ T, tr_root st = root T ∧ tree_at m' T ∧ inorder T ≡ₚ (tset tr.*1).2 ∧ NoDup (inorder T).*1 ∧
    increasing (tset tr.*1).1 (inorder T) ∧
    tr_count st = Z.of_nat (length (inorder T)) ∧ log_bound (depth T) (length (inorder T)) ∧ height_balanced 2 T).
Proof.
  apply thist_any. intros om K D live cs tr m' (s & Hc & _ & Ht) st ->.
  pose proof (tgood_ok _ _ _ _ _ _ Hc) as (Hperm & Hnd & _ & Hct). rewrite /telems in Hperm Hnd.
  destruct (ts_tree s) as [[c xs]|]; [|done]. destruct Ht as (st' & T & [= <-] & Hr & Hat & <- & Havl & Hinc & Hcnt).
  destruct (Hct _ _ eq_refl) as (Hceq & _). exists T. rewrite Hceq. split; [done|]. split; [done|]. split; [done|].
  split; [done|]. split; [done|]. split; [done|]. split; [by apply avl_log|by apply avl_height_balanced].
Qed.

(** foreach calls the function in increasing order. *)
Lemma tree_foreach_ok : after_any_tree_history (λ _ _ tr _, ∀ tr0 o a tr1, tr = tr0 ++ (o, a) :: tr1 →
  let c := (tset tr0.*1).1 in let xs := (tset tr0.*1).2 in
  ∃ ys, ys ≡ₚ xs ∧ increasing c ys ∧
    (o = TrForeach → a = TrData ys.*2) ∧
    (∀ arg, o = TrForeachArg arg → a = TrData (y ← ys; [arg; y.2])) ∧
    (o = TrForeachFree → a = TrData ys.*2)).
Proof.
  apply thist_any. intros om K D live cs tr m' (s & Hc & _) tr0 o a tr1 ->.
  apply correct_app in Hc as (s1 & Hc1 & Hc2). inversion Hc2 as [|? ? ? s2 ? ? Hp Hc3]; subst.
  pose proof (tgood_ok _ _ _ _ _ _ Hc1) as (Hperm & _ & _ & Hct). destruct Hp as [_ Hpost].
  exists (telems s1). split; [done|]. rewrite /telems. split.
  - destruct (ts_tree s1) as [[c xs]|]; [|constructor]. by destruct (Hct _ _ eq_refl) as (-> & _ & Hinc).
  - split; [|split]; [intros ->|intros arg ->|intros ->]; destruct Hpost as (c & xs & -> & -> & _); done.
Qed.

(** Freeing: the blocks of the elements are no longer live, all others are. *)
Lemma tree_foreach_free_ok : after_any_tree_history (λ live _ tr m', ∀ tr0 a,
  tr = tr0 ++ [(TrForeachFree, a)] → Forall (λ x, x.1 ≠ TrForeachFree) tr0 →
  heap_live m' (free_all (tset tr0.*1).2.*2 live)).
Proof.
  apply thist_any. intros om K D live cs tr m' (s & Hc & Hh & _) tr0 a -> Hno.
  apply correct_snoc in Hc as (s1 & Hc1 & [Hpre Hpost]).
  pose proof (tgood_ok _ _ _ _ _ _ Hc1) as (Hperm & _).
  assert (Hlive : ts_live s1 = live).
  { clear -Hc1 Hno. revert s1 Hc1. induction tr0 as [|[o b] tr0 IH] using rev_ind; intros s1 Hc.
    - by inversion Hc.
    - apply Forall_app in Hno as [Hno Ho]. apply correct_snoc in Hc as (s2 & Hc & [_ Hp]). rewrite -(IH Hno _ Hc).
      apply Forall_cons in Ho as [Ho _]. simpl in Ho.
      destruct o; simpl in Hp; naive_solver. }
  destruct Hpost as (c & xs & Hs & _ & ->). simpl in Hh. rewrite /telems Hs in Hperm. rewrite Hlive in Hh.
  assert (Hfp : ∀ (l k : list Z) (h : gmap Z region), l ≡ₚ k → free_all l h = free_all k h).
  { clear. intros l k h. rewrite /free_all. induction 1; simpl; [done|by f_equal|apply delete_commute|congruence]. }
  by rewrite (Hfp _ xs.*2 live); [|by rewrite Hperm].
Qed.

(** ** foreach with any callback *)
Lemma same_nodes_sub xs ys m m' : (∀ x, x ∈ ys → x ∈ xs) → same_nodes xs m m' → same_nodes ys m m'.
Proof. intros Hs H p d a Hin Ha. apply (H p d a); [by apply Hs|done]. Qed.

Lemma tree_foreach_gen func xs m : spares_unvisited func xs m → ∀ T fuel dn more m1,
  xs = dn ++ inorder T ++ more → tree_at m T → (depth T ≤ fuel)%nat → same_nodes (inorder T ++ more) m m1 →
  tree_foreach_node fuel (root T) func m1 = each func (inorder T).*2 m1 ∧
  (∀ m2, each func (inorder T).*2 m1 = Ok tt m2 → same_nodes more m m2).
Proof.
  intros Hsp T. induction T as [|p d i l IHl r IHr]; intros fuel dn more m1 Hxs Hat Hf Hsame.
  { split; [by destruct fuel|]. simpl. by intros m2 [= <-]. }
  simpl in Hf. destruct fuel as [|fuel]; [lia|]. destruct Hat as (Hp & Hn & Hv & Hd & _ & Hl & Hr).
  simpl root. cbn [tree_foreach_node]. destruct (decide (p = null)) as [->|_]; [by unfold null in Hp|].
  simpl inorder in *. rewrite fmap_app fmap_cons. unfold mbind, M_bind.
  assert (Hcell : ∀ m', same_nodes ((p, d) :: inorder r ++ more) m m' → ∀ a, a ∈ [f_next p; f_prev p; f_data p] → m' !! a = m !! a).
  { intros m' Hs a Ha. apply (Hs p d); [by left|]. rewrite node_cells_4. set_solver. }
  assert (Hs1 : same_nodes ((p, d) :: inorder r ++ more) m m1) by (eapply same_nodes_sub; [|exact Hsame]; set_solver).
  rewrite {1}/load (Hcell m1 Hs1 (f_prev p)); [|set_solver]. rewrite Hv.
  destruct (IHl fuel dn ((p, d) :: inorder r ++ more) m1) as [El Hsl].
  { rewrite Hxs -!app_assoc //. } { done. } { lia. } { by rewrite -app_assoc in Hsame. }
  rewrite El. rewrite each_app. unfold mbind, M_bind. destruct (each func (inorder l).*2 m1) as [[] m2| | |] eqn:E1; [|done..].
  specialize (Hsl m2 eq_refl). rewrite {1}/load (Hcell m2 Hsl (f_next p)); [|set_solver]. rewrite Hn.
  rewrite {1}/load (Hcell m2 Hsl (f_data p)); [|set_solver]. rewrite Hd. simpl. unfold mbind, M_bind.
  destruct (func d m2) as [[] m3| | |] eqn:E2; [|done..].
  assert (Hs3 : same_nodes (inorder r ++ more) m m3).
  { eapply (Hsp (dn ++ inorder l) (p, d)); [rewrite Hxs -!app_assoc //|exact Hsl|exact E2]. }
  destruct (IHr fuel (dn ++ inorder l ++ [(p, d)]) more m3) as [Er Hsr].
  { rewrite Hxs -!app_assoc //. } { done. } { lia. } { done. }
  rewrite Er. split; [done|]. intros m4 E4. by apply Hsr.
Qed.

Lemma tree_foreach_any func T st fuel m :
  tree_at m T → tr_root st = root T → (depth T ≤ fuel)%nat → spares_unvisited func (inorder T) m →
  tree_foreach fuel st func m = each func (inorder T).*2 m.
Proof.
  intros Hat Hr Hf Hsp. rewrite /tree_foreach Hr.
  apply (tree_foreach_gen func (inorder T) m Hsp T fuel [] []); [by rewrite app_nil_r|done|done|]. by intros p d a.
Qed.

(** ** Rebalancing terminates *)
Local Arguments node_cells : simpl never.
Definition tree_cells (T : tree) : list Z := pd ← inorder T; node_cells 4 pd.1.

Lemma tree_at_cells m T : tree_at m T → ∀ a, a ∈ tree_cells T → is_Some (m !! a).
Proof.
  induction T as [|p d i l IHl r IHr]; simpl.
  - intros _ a Ha. rewrite /tree_cells /= in Ha. by apply elem_of_nil in Ha.
  - intros (Hp & Hn & Hv & Hd & Hi & Hl & Hr) a Ha. rewrite /tree_cells /= bind_app bind_cons in Ha.
    apply elem_of_app in Ha as [Ha|[Ha|Ha]%elem_of_app]; [by apply IHl| |by apply IHr].
    simpl in Ha. rewrite node_cells_4 in Ha. set_unfold in Ha. destruct Ha as [->|[->|[->|[->|[]]]]]; eauto.
Qed.

Lemma tree_at_treeR `{!memG} m T : tree_at m T →
  ([∗ list] a ∈ tree_cells T, ∃ c, ⌜m !! a = Some c⌝ ∗ a ↦ c) ⊢ treeR T.
Proof.
  induction T as [|p d i l IHl r IHr]; intros Hat.
  - rewrite treeR_leaf. auto.
  - destruct Hat as (Hp & Hn & Hv & Hd & Hi & Hl & Hr). rewrite treeR_node /tree_cells /= bind_app bind_cons !big_sepL_app.
    cbn [fst]. rewrite (node_cells_4 p) /=. iIntros "(Hl & ((%&%&Hn)&(%&%&Hv)&(%&%&Hd)&(%&%&Hi)&_) & Hr)". simplify_eq.
    iSplitL "Hn Hv Hd Hi"; [by iFrame|]. iSplitL "Hl"; [by iApply IHl|by iApply IHr].
Qed.

(** [tree_balance] on a node whose subtrees are index-AVL, of any two heights. *)
Lemma tree_balance_ok m fuel p d i l r :
  tree_at m (Node p d i l r) → NoDup (tree_cells (Node p d i l r)) → avl l → avl r →
  Z.max (idx l) (idx r) < 2 ^ 62 → 3 + Z.max (idx l) (idx r) ≤ Z.of_nat fuel →
  succeeds (tree_balance fuel p m) (λ q m', ∃ T', q = root T' ∧ tree_at m' T' ∧ inorder T' = inorder l ++ (p, d) :: inorder r ∧
    avl T' ∧ Z.max (idx l) (idx r) ≤ idx T' ≤ Z.max (idx l) (idx r) + 1 ∧
    unchanged_outside (tree_cells (Node p d i l r)) m m').
Proof.
  intros Hat Hnd Hl Hr Hb Hf. apply (wp_adequacy_frame False (tree_cells (Node p d i l r))). intros HG _ HF. iIntros "Hm".
  iDestruct (big_sepM_cells m (tree_cells (Node p d i l r)) with "Hm") as "Hc"; [done|by apply tree_at_cells|].
  rewrite tree_at_treeR //. iEval (rewrite treeR_node) in "Hc". iDestruct "Hc" as "(Hn & Hl & Hr)".
  iApply (wp_balance_ok with "Hn Hl Hr"); [done|done|done|done|]. iIntros (T' (Hin & Ha & Hi)) "HT". iIntros (m') "Hm".
  iDestruct (treeR_at with "Hm HT") as %Hat'.
  iAssert ⌜unchanged_outside (tree_cells (Node p d i l r)) m m'⌝%I as %Hun.
  { iIntros (a c' Ha' Hc'). iDestruct (memI_frame with "Hm") as %Hsub. iPureIntro.
    eapply lookup_weaken; [|exact Hsub]. rewrite HF. by apply map_filter_lookup_Some. }
  iPureIntro. exists T'. done.
Qed.

(** ** The number of calls of tommy_tree_balance *)
Lemma tree_balance_calls_ok m fuel p d i l r :
  tree_at m (Node p d i l r) → NoDup (tree_cells (Node p d i l r)) → avl l → avl r →
  Z.max (idx l) (idx r) < 2 ^ 62 → 3 + Z.max (idx l) (idx r) ≤ Z.of_nat fuel →
  succeeds (tree_balance_w fuel p m) (λ x _,
    Z.abs (idx l - idx r) + 1 ≤ 2 * x.2 ∧ x.2 ≤ 16 * Z.abs (idx l - idx r) + 1).
Proof.
  intros Hat Hnd Hl Hr Hb Hf. apply (wp_adequacy_frame False (tree_cells (Node p d i l r))). intros HG _ HF. iIntros "Hm".
  iDestruct (big_sepM_cells m (tree_cells (Node p d i l r)) with "Hm") as "Hc"; [done|by apply tree_at_cells|].
  rewrite tree_at_treeR //. iEval (rewrite treeR_node) in "Hc". iDestruct "Hc" as "(Hn & Hl & Hr)".
  iApply (wp_balance_ok_w with "Hn Hl Hr"); [done|done|done|done|]. iIntros (T' n (_ & Hk & _)) "HT". iIntros (m') "Hm". done.
Qed.

Lemma tree_work_ok : after_any_counted_history (λ _ tr _, ∀ tr0 o a n tr1, tr = tr0 ++ (o, (a, n)) :: tr1 →
  trwork (length (tset tr0.*1).2) o n).
Proof.
  intros om K D t live m fuel c Hs Hf Ha. pose proof (tree_history_n om K D t live m fuel c Hs Hf Ha) as Hh. unfold succeeds in *.
  destruct (run (trstep_n fuel t) None c m) as [r m'| | |]; [|done..]. destruct Hh as (s' & Hc).
  intros tr0 o a n tr1 Hr. rewrite Hr in Hc. apply correct_app in Hc as (s1 & Hc1 & Hc2).
  inversion Hc2 as [|? ? ? s2 ? ? [_ Hw] Hc3]; subst.
  assert (Hg : tgood s1 (tset tr0.*1)).
  { clear -Hc1. revert s1 Hc1. induction tr0 as [|[o a] tr IH] using rev_ind; intros s Hc.
    - inversion Hc; subst. split; [done|]. split; [constructor|]. split; [set_solver|done].
    - apply correct_snoc in Hc as (s1 & Hc & [Hp _]). rewrite fmap_app tset_snoc. eapply tgood_step; [by apply IH|exact Hp]. }
  destruct Hg as (Hp & _). by rewrite Hp.
Qed.

Lemma tree_remove_long_ok om K D t live m fuel c :
  tree_start om K t live m → (size om + 4 ≤ fuel)%nat →
  allowed (trpre om K D) trpost (trstate0 om live) c →
  succeeds (run (trstep fuel t) None c m) (λ r m', let xs := (tset r.2.*1).2 in let k := Z.log2 (Z.of_nat (length xs) + 1) in
    3 ≤ k → ∃ p d, (p, d) ∈ xs ∧ succeeds (trstep_w fuel t r.1 (TrRemove d) m') (λ x _, (k - 3) * (k - 3) ≤ 8 * x.2)).
Proof.
  intros Hs Hf Ha. pose proof (tree_remove_long om K D t live m fuel c Hs Hf Ha) as Hh. unfold succeeds in *.
  destruct (run (trstep fuel t) None c m) as [r m'| | |]; [|done..]. destruct Hh as (s' & Hc & Hx).
  pose proof (tgood_ok _ _ _ _ _ _ Hc) as (Hp & _). pose proof (Permutation_length Hp) as Hl. cbv zeta in Hx |- *. rewrite <- Hl in Hx.
  intros Hk. destruct (Hx Hk) as (p & d & Hin & Hr). exists p, d. split; [by rewrite Hp|done].
Qed.
