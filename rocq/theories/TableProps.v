(** * Consequences of the history theorems, operation by operation. *)
From Verif Require Export ListHist TableSpec.
Global Open Scope Z_scope.

Lemma first_match_split g arg h es1 e es2 :
  accepts g arg h e → Forall (λ e, ¬ accepts g arg h e) es1 →
  first_match g arg h (es1 ++ e :: es2) = en_d e ∧ remove_first g arg h (es1 ++ e :: es2) = es1 ++ es2.
Proof.
  intros He. induction 1 as [|x es1 Hx Hes IH]; simpl.
  - destruct (decide _) as [|Hn]; [done|by destruct Hn].
  - destruct (decide _) as [Hy|]; [by destruct Hx|]. destruct IH as [-> ->]. done.
Qed.
Lemma first_match_none g arg h es :
  Forall (λ e, ¬ accepts g arg h e) es → first_match g arg h es = 0 ∧ remove_first g arg h es = es.
Proof.
  induction 1 as [|x es Hx Hes IH]; simpl; [done|]. destruct (decide _) as [Hy|]; [by destruct Hx|].
  destruct IH as [-> ->]. done.
Qed.

Lemma correct_snoc {op out sst} (post : sst → op → out → sst → Prop) s tr s' o a s'' :
  correct post s tr s' → post s' o a s'' → correct post s (tr ++ [(o, a)]) s''.
Proof.
  intros Hc Hp. induction Hc as [|s o' a' s1 tr s2 Hp' Hc IH]; simpl.
  - econstructor; [exact Hp|constructor].
  - econstructor; [exact Hp'|by apply IH].
Qed.

Section props.
  Variables (T : table) (inv : tb_st T → nat → Prop).
  Hypothesis hist : ∀ om K t live m fuel c,
    table_start om K t live m → (size om ≤ fuel)%nat → allowed (tpre om K) tpost (tstate0 om live) c →
    safe (run (tstep T fuel t) None c m) (λ r m',
      table_end T inv om live r.1 r.2 m' ∧ unchanged_outside (HCTL :: t :: objs_cells om) m m').

  Lemma hist_any (Q : objmap → gmap Z region → option (tb_st T) → list (top * tout) → mem → Prop) :
    (∀ om live cs tr m', table_end T inv om live cs tr m' → Q om live cs tr m') → after_any_history T Q.
  Proof.
    intros HQ om K t live m fuel c Hs Hf Ha. pose proof (hist om K t live m fuel c Hs Hf Ha) as H.
    unfold safe in *. destruct (run (tstep T fuel t) None c m) as [r m'| | |]; try done. apply HQ, H.
  Qed.

  Lemma hist_op (Q : objmap → gmap Z region → list (top * tout) → top → tout → Prop) :
    (∀ om live tr s o a s', correct tpost (tstate0 om live) tr s → tpost s o a s' →
       correct tpost (tstate0 om live) (tr ++ [(o, a)]) s' → Q om live tr o a) →
    after_any_history T (λ om live _ tr _, ∀ tr0 o a tr1, tr = tr0 ++ (o, a) :: tr1 → Q om live tr0 o a).
  Proof.
    intros HQ. apply hist_any. intros om live cs tr m' (s' & int & Hc & _) tr0 o a tr1 ->.
    apply correct_app in Hc as (s & Hc1 & Hc2). inversion Hc2 as [|? ? ? s1 ? ? Hp Hc3]; subst.
    eapply HQ; [exact Hc1|exact Hp|]. by eapply correct_snoc.
  Qed.

  Lemma hist_op' (Q : objmap → gmap Z region → list (top * tout) → top → tout → Prop)
    (R : objmap → gmap Z region → option (tb_st T) → list (top * tout) → mem → Prop) :
    (∀ om live tr s o a s', correct tpost (tstate0 om live) tr s → tpost s o a s' →
       correct tpost (tstate0 om live) (tr ++ [(o, a)]) s' → Q om live tr o a) →
    (∀ om live cs tr m', (∀ tr0 o a tr1, tr = tr0 ++ (o, a) :: tr1 → Q om live tr0 o a) → R om live cs tr m') →
    after_any_history T R.
  Proof.
    intros HQ HR om K t live m fuel c Hs Hf Ha. pose proof (hist_op Q HQ om K t live m fuel c Hs Hf Ha) as H.
    unfold safe in *. destruct (run (tstep T fuel t) None c m) as [r m'| | |]; try done. apply HR, H.
  Qed.

  Lemma table_search : after_any_history T (λ om live _ tr _,
    ∀ tr0 f g arg h a tr1, tr = tr0 ++ (TSearch f g arg h, a) :: tr1 →
    ∃ es cs, content om live tr0 es ∧ content om live (tr0 ++ [(TSearch f g arg h, a)]) es ∧
      a = TOFound (first_match g arg h es) cs).
  Proof.
    apply (hist_op' (λ om live tr o a, ∀ f g arg h, o = TSearch f g arg h →
      ∃ es cs, content om live tr es ∧ content om live (tr ++ [(o, a)]) es ∧ a = TOFound (first_match g arg h es) cs)).
    { intros ? ? tr s o a s' Hc Hp Hc' f g arg h ->. destruct Hp as [-> Hp].
      destruct Hp as [(es1 & e & es2 & Ht & Hacc & Hno & ->)|(es & Ht & Hno & ->)].
      - destruct (first_match_split g arg h es1 e es2 Hacc Hno) as [Hfm _].
        eexists (es1 ++ e :: es2), _. rewrite Hfm. split; [by exists s|]. split; [by exists s|]. done.
      - destruct (first_match_none g arg h es Hno) as [Hfm _].
        exists es, (calls arg h es). split; [by exists s|]. split; [by exists s|]. by rewrite Hfm. }
    intros. eauto.
  Qed.

  Lemma table_remove : after_any_history T (λ om live _ tr _,
    ∀ tr0 f g arg h a tr1, tr = tr0 ++ (TRemove f g arg h, a) :: tr1 →
    ∃ es cs, content om live tr0 es ∧
      content om live (tr0 ++ [(TRemove f g arg h, a)]) (remove_first g arg h es) ∧
      a = TOFound (first_match g arg h es) cs).
  Proof.
    apply (hist_op' (λ om live tr o a, ∀ f g arg h, o = TRemove f g arg h →
      ∃ es cs, content om live tr es ∧ content om live (tr ++ [(o, a)]) (remove_first g arg h es) ∧
        a = TOFound (first_match g arg h es) cs)).
    { intros ? ? tr s o a s' Hc Hp Hc' f g arg h ->.
      destruct Hp as [(es1 & e & es2 & Ht & Hacc & Hno & -> & ->)|(es & Ht & Hno & -> & ->)].
      - destruct (first_match_split g arg h es1 e es2 Hacc Hno) as [Hfm Hrm].
        eexists (es1 ++ e :: es2), _. rewrite Hfm Hrm. split; [by exists s|]. split; [by eexists|]. done.
      - destruct (first_match_none g arg h es Hno) as [Hfm Hrm].
        exists es, (calls arg h es). rewrite Hfm Hrm. split; [by exists s|]. split; [by exists s|]. done. }
    intros. eauto.
  Qed.

  Lemma table_remove_existing : after_any_history T (λ om live _ tr _,
    ∀ tr0 p a tr1, tr = tr0 ++ (TRemoveExisting p, a) :: tr1 →
    ∃ es1 d h es2, content om live tr0 (es1 ++ Ent p d h :: es2) ∧ a = TOWord d ∧
      content om live (tr0 ++ [(TRemoveExisting p, a)]) (es1 ++ es2)).
  Proof.
    apply (hist_op' (λ om live tr o a, ∀ p, o = TRemoveExisting p →
      ∃ es1 d h es2, content om live tr (es1 ++ Ent p d h :: es2) ∧ a = TOWord d ∧ content om live (tr ++ [(o, a)]) (es1 ++ es2))).
    { intros ? ? tr s o a s' Hc Hp Hc' p ->. destruct Hp as (es1 & d & h & es2 & Ht & -> & ->).
      exists es1, d, h, es2. split; [by exists s|]. split; [done|]. by eexists. }
    intros. eauto.
  Qed.

  Lemma table_insert : after_any_history T (λ om live _ tr _,
    ∀ tr0 p d h a tr1, tr = tr0 ++ (TInsert p d h, a) :: tr1 →
    ∃ es, content om live tr0 es ∧ content om live (tr0 ++ [(TInsert p d h, a)]) (es ++ [Ent p d h])).
  Proof.
    apply (hist_op' (λ om live tr o a, ∀ p d h, o = TInsert p d h →
      ∃ es, content om live tr es ∧ content om live (tr ++ [(o, a)]) (es ++ [Ent p d h]))).
    { intros ? ? tr s o a s' Hc Hp Hc' p d h ->. destruct Hp as (es & Ht & -> & ->).
      exists es. split; [by exists s|]. by eexists. }
    intros. eauto.
  Qed.

  Lemma table_count : after_any_history T (λ om live _ tr _,
    ∀ tr0 a tr1, tr = tr0 ++ (TCount, a) :: tr1 →
    ∃ es, content om live tr0 es ∧ a = TOWord (Z.of_nat (length es))).
  Proof.
    apply (hist_op' (λ om live tr o a, o = TCount → ∃ es, content om live tr es ∧ a = TOWord (Z.of_nat (length es)))).
    { intros ? ? tr s o a s' Hc Hp Hc' ->. destruct Hp as (es & Ht & -> & ->).
      exists es. split; [by exists s|done]. }
    intros. eauto.
  Qed.

  Lemma table_bucket : after_any_history T (λ om live _ tr _,
    ∀ tr0 h a tr1, tr = tr0 ++ (TBucket h, a) :: tr1 →
    ∃ es xs, content om live tr0 es ∧ a = TONodes ((λ e, (en_p e, en_d e)) <$> xs) ∧
      xs ⊆+ es ∧ filter (λ e, en_h e = h) xs = filter (λ e, en_h e = h) es).
  Proof.
    apply (hist_op' (λ om live tr o a, ∀ h, o = TBucket h →
      ∃ es xs, content om live tr es ∧ a = TONodes ((λ e, (en_p e, en_d e)) <$> xs) ∧
      xs ⊆+ es ∧ filter (λ e, en_h e = h) xs = filter (λ e, en_h e = h) es)).
    { intros ? ? tr s o a s' Hc Hp Hc' h ->. destruct Hp as (es & xs & Ht & -> & Hsub & Hfil & ->).
      exists es, xs. split; [by exists s|done]. }
    intros. eauto.
  Qed.

  Lemma table_foreach : after_any_history T (λ om live _ tr _,
    (∀ tr0 a tr1, tr = tr0 ++ (TForeach, a) :: tr1 →
      ∃ es es', content om live tr0 es ∧ Permutation es' es ∧ a = TOData (en_d <$> es')) ∧
    (∀ tr0 arg a tr1, tr = tr0 ++ (TForeachArg arg, a) :: tr1 →
      ∃ es es', content om live tr0 es ∧ Permutation es' es ∧ a = TOData (e ← es'; [arg; en_d e])) ∧
    (∀ tr0 a tr1, tr = tr0 ++ (TForeachFree, a) :: tr1 →
      ∃ es es' s', content om live tr0 es ∧ Permutation es' es ∧ a = TOData (en_d <$> es') ∧
        correct tpost (tstate0 om live) (tr0 ++ [(TForeachFree, a)]) s')).
  Proof.
    apply (hist_op' (λ om live tr o a,
     (o = TForeach → ∃ es es', content om live tr es ∧ Permutation es' es ∧ a = TOData (en_d <$> es')) ∧
     (∀ arg, o = TForeachArg arg → ∃ es es', content om live tr es ∧ Permutation es' es ∧ a = TOData (e ← es'; [arg; en_d e])) ∧
     (o = TForeachFree → ∃ es es' s', content om live tr es ∧ Permutation es' es ∧ a = TOData (en_d <$> es') ∧
        correct tpost (tstate0 om live) (tr ++ [(o, a)]) s'))).
    { intros ? ? tr s o a s' Hc Hp Hc'. split; [|split].
      - intros ->. destruct Hp as (es & es' & Ht & Hperm & -> & ->). exists es, es'. split; [by exists s|done].
      - intros arg ->. destruct Hp as (es & es' & Ht & Hperm & -> & ->). exists es, es'. split; [by exists s|done].
      - intros ->. destruct Hp as (es & es' & Ht & Hperm & -> & ->). exists es, es'. eexists.
        split; [by exists s|]. split; [done|]. split; [done|exact Hc']. }
    intros ? ? ? tr ? HQ. split; [|split]; intros; subst; eapply HQ; eauto.
  Qed.

  Lemma table_inv : after_any_history T (λ om live cs tr _, ∃ s, correct tpost (tstate0 om live) tr s ∧
    match ts_tab s with TabNone => cs = None | TabEs es => ∃ st, cs = Some st ∧ inv st (length es) | TabFreed => True end).
  Proof.
    apply hist_any. intros om live cs tr m' (s & int & Hc & _ & _ & He). exists s. split; [done|].
    destruct (ts_tab s); [by destruct He| |done]. destruct He as (st & -> & Hi & _). by exists st.
  Qed.

  Lemma table_visits (Harg : ∀ fuel st func arg, tb_foreach_arg T fuel st func arg = tb_foreach T fuel st (func arg)) :
    after_any_history T (λ om live cs tr m', ∃ s int, correct tpost (tstate0 om live) tr s ∧
      heap_live m' (int ∪ ts_live s) ∧ int ##ₘ ts_live s ∧
      ∀ es, ts_tab s = TabEs es → ∃ st es', cs = Some st ∧ Permutation es' es ∧
        (∀ func fuel, (length es ≤ fuel)%nat →
          spares_table func int ((λ e, (en_p e, en_d e)) <$> es') m' →
          tb_foreach T fuel st func m' = each func (en_d <$> es') m') ∧
        (∀ func arg fuel, (length es ≤ fuel)%nat →
          spares_table (func arg) int ((λ e, (en_p e, en_d e)) <$> es') m' →
          tb_foreach_arg T fuel st func arg m' = each (func arg) (en_d <$> es') m')).
  Proof.
    apply hist_any. intros om live cs tr m' (s & int & Hc & Hl & Hd & He). exists s, int.
    do 3 (split; [done|]). intros es Ht. rewrite Ht in He. destruct He as (st & -> & _ & (es' & Hp & Hv) & _).
    exists st, es'. do 2 (split; [done|]). split; [exact Hv|]. intros func arg fuel. rewrite Harg. apply Hv.
  Qed.

  Lemma table_memory : after_any_history T (λ om live cs tr m',
    ∃ s int, correct tpost (tstate0 om live) tr s ∧ heap_live m' (int ∪ ts_live s) ∧ int ##ₘ ts_live s ∧
      ∀ es, ts_tab s = TabEs es → ∃ st, cs = Some st ∧
        tb_memory_usage T st = heap_bytes int + 32 * Z.of_nat (length es)).
  Proof.
    apply hist_any. intros om live cs tr m' (s & int & Hc & Hl & Hd & He). exists s, int.
    do 3 (split; [done|]). intros es Ht. rewrite Ht in He. destruct He as (st & -> & _ & _ & Hm & _). by exists st.
  Qed.

  Lemma table_heap : after_any_history T (λ om live cs tr m',
    ∃ s int, correct tpost (tstate0 om live) tr s ∧ heap_live m' (int ∪ ts_live s) ∧ int ##ₘ ts_live s ∧
      (ts_tab s = TabNone → int = ∅)).
  Proof.
    apply hist_any. intros om live cs tr m' (s & int & Hc & Hl & Hd & He). exists s, int.
    split; [done|]. split; [done|]. split; [done|]. intros Ht. rewrite Ht in He. by destruct He.
  Qed.
End props.
