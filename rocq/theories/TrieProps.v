(** * Consequences of the history theorem of the trie *)
From Verif Require Export TrieHist TreeProps.
Global Open Scope Z_scope.

Definition xgood (s : xstate) (ops : list xop) : Prop :=
  kok (xs_k s) ∧ ks_es (xs_k s) = xset ops ∧
  match xs_cfg s with Some (_, bl) => Z.of_nat (size bl) = xheld ops | None => xheld ops = 0 ∧ xset ops = [] end.

Lemma xset_snoc ops o : xset (ops ++ [o]) = xset_step (xset ops) o.
Proof. by rewrite /xset foldl_app. Qed.
Lemma xheld_snoc ops o : xheld (ops ++ [o]) = xheld_step (xheld ops) o.
Proof. by rewrite /xheld foldl_app. Qed.

Lemma xgood_step s ops o a s' : xgood s ops → xboth s o a s' → xgood s' (ops ++ [o]) ∧ ∀ k, o = XOp k → a = kanswer (xset ops) k.
Proof.
  intros (Hk & Hes & Hbl) [Hpre Hpost]. rewrite /xgood xset_snoc xheld_snoc -Hes. rewrite -Hes in Hbl. destruct o; simpl in *.
  - destruct Hpost as [-> ->]. destruct Hpre as [Hc _]. rewrite Hc in Hbl. destruct Hbl as [_ Hbl]. simpl. rewrite Hbl. done.
  - destruct Hpost as (k' & Hpost & ->). destruct Hpre as [Hc Hpre]. destruct (kstep_ok _ _ _ _ Hk Hpre Hpost) as (H1 & H2 & H3).
    simpl. split; [|by intros ? [= <-]]. split; [done|]. split; [done|]. destruct Hc as [[bs bl] Hc]. by rewrite Hc in Hbl |- *.
  - destruct Hpost as [-> ->]. done.
  - destruct Hpost as (bs & bl & p & Hc & -> & Hp & ->). rewrite Hc in Hbl. simpl. split; [|done]. split; [done|]. split; [done|].
    rewrite size_union; [|set_solver]. rewrite size_singleton. lia.
  - destruct Hpost as [-> ->]. done.
  - destruct Hpost as (bs & bl & Hc & -> & ->). destruct Hpre as (bs' & bl' & Hc' & Hp). rewrite Hc in Hc', Hbl. injection Hc' as <- <-.
    simpl. split; [|done]. split; [done|]. split; [done|]. rewrite size_difference; [|set_solver]. rewrite size_singleton.
    assert (size bl ≠ 0%nat) by (apply size_non_empty_iff; set_solver). lia.
  - destruct Hpost as (bs & bl & Hc & -> & ->). done.
  - destruct Hpost as [-> ->]. simpl. split; [|done]. split; [|done]. split; [constructor|]. intros p _ Hp. by apply elem_of_nil in Hp.
Qed.

Lemma xgood_ok om live tr s : correct xboth (xstate0 om live) tr s → xgood s tr.*1.
Proof.
  revert s. induction tr as [|[o a] tr IH] using rev_ind; intros s Hc.
  - inversion Hc; subst. split; [|done]. split; [constructor|]. intros p _ Hp. by apply elem_of_nil in Hp.
  - apply correct_snoc in Hc as (s1 & Hc & Hb). rewrite fmap_app. simpl. eapply xgood_step; [by apply IH|done].
Qed.

Lemma xhist_any (Q : gmap Z region → option (trie * allocator) → list (xop * kout) → mem → Prop) :
  (∀ om live cs tr m', trie_end_both om live cs tr m' → Q live cs tr m') → after_any_trie_history Q.
Proof.
  intros HQ om tb live m fuel c Hl Hf Ha. eapply safe_mono; [by apply trie_history_both|]. simpl. intros r m' [H _]. by eapply HQ.
Qed.

Lemma trie_answers_ok : after_any_trie_history (λ _ _ tr _, ∀ tr0 o a tr1, tr = tr0 ++ (XOp o, a) :: tr1 → a = kanswer (xset tr0.*1) o).
Proof.
  apply xhist_any. intros om live cs tr m' (s & own & Hc & _) tr0 o a tr1 ->.
  apply correct_app in Hc as (s1 & Hc1 & Hc2). inversion Hc2 as [|? ? ? s2 ? ? Hp Hc3]; subst.
  eapply xgood_step; [by eapply xgood_ok|done|done].
Qed.

Lemma trie_bucket_ok : after_any_trie_history (λ _ _ tr _, ∀ tr0 k a tr1,
  (tr = tr0 ++ (XOp (KBucket k), a) :: tr1 → a = KNodes ((λ e, (te_p e, te_d e)) <$> with_key k (xset tr0.*1))) ∧
  (tr = tr0 ++ (XOp (KSearch k), a) :: tr1 →
     a = KWord (match with_key k (xset tr0.*1) with e :: _ => te_d e | [] => 0 end))).
Proof.
  intros om tb live m fuel c H1 H2 H3. eapply safe_mono; [exact (trie_answers_ok om tb live m fuel c H1 H2 H3)|]. simpl. intros r m' HA tr0 k a tr1.
  split; intros Htr; by apply HA in Htr.
Qed.

Lemma trie_remove_ok : after_any_trie_history (λ _ _ tr _, ∀ tr0 k a tr1, tr = tr0 ++ (XOp (KRemove k), a) :: tr1 →
  let es := xset tr0.*1 in let es' := xset (tr0.*1 ++ [XOp (KRemove k)]) in
  (∃ es1 e es2, es = es1 ++ e :: es2 ∧ es' = es1 ++ es2 ∧ te_k e = k ∧ Forall (λ e, te_k e ≠ k) es1 ∧ a = KWord (te_d e)) ∨
  (Forall (λ e, te_k e ≠ k) es ∧ es' = es ∧ a = KWord 0)).
Proof.
  intros om tb live m fuel c H1 H2 H3. eapply safe_mono; [exact (trie_answers_ok om tb live m fuel c H1 H2 H3)|]. simpl. intros r m' HA tr0 k a tr1 Htr.
  apply HA in Htr. rewrite xset_snoc. simpl in *. destruct (with_key k (xset tr0.*1)) as [|e l] eqn:Hw.
  - apply with_key_nil in Hw. right. rewrite remove_first_none //.
  - destruct (with_key_first _ _ _ _ Hw) as (es1 & es2 & Hes & Hke & HF & _). left. exists es1, e, es2. rewrite Hes remove_first_split //.
Qed.

Lemma trie_remove_existing_ok : after_any_trie_history (λ _ _ tr _, ∀ tr0 p a tr1, tr = tr0 ++ (XOp (KRemoveExisting p), a) :: tr1 →
  let es := xset tr0.*1 in let es' := xset (tr0.*1 ++ [XOp (KRemoveExisting p)]) in
  ∃ es1 d k es2, es = es1 ++ TEnt p d k :: es2 ∧ es' = es1 ++ es2 ∧ a = KWord d).
Proof.
  apply xhist_any. intros om live cs tr m' (s & own & Hc & _) tr0 p a tr1 ->.
  apply correct_app in Hc as (s1 & Hc1 & Hc2). inversion Hc2 as [|? ? ? s2 ? ? Hp Hc3]; subst.
  pose proof (xgood_ok _ _ _ _ Hc1) as Hg. destruct (xgood_step _ _ _ _ _ Hg Hp) as [(_ & <- & _) _]. destruct Hg as (_ & <- & _).
  destruct Hp as [_ (k' & (es1 & d & k & es2 & H1 & H2 & ->) & ->)]. exists es1, d, k, es2. done.
Qed.

Lemma trie_count_ok : after_any_trie_history (λ _ cs tr _,
  (∀ tr0 a tr1, tr = tr0 ++ (XOp KCount, a) :: tr1 → a = KWord (Z.of_nat (length (xset tr0.*1)))) ∧
  (∀ t al, cs = Some (t, al) → tri_count t = Z.of_nat (length (xset tr.*1)))).
Proof.
  apply xhist_any. intros om live cs tr m' (s & own & Hc & _ & _ & Hend). pose proof (xgood_ok _ _ _ _ Hc) as Hg. split.
  - intros tr0 a tr1 ->. apply correct_app in Hc as (s1 & Hc1 & Hc2). inversion Hc2 as [|? ? ? s2 ? ? Hp Hc3]; subst.
    destruct (xgood_step _ _ _ _ _ (xgood_ok _ _ _ _ Hc1) Hp) as [_ Hk]. exact (Hk _ eq_refl).
  - intros t al ->. destruct Hg as (_ & <- & _). destruct (xs_cfg s) as [[bs bl]|]; [|by destruct Hend]. by destruct Hend as (? & ? & [= <- <-] & ? & _).
Qed.

Lemma inner_count_empty : inner_count ∅ = 0%nat.
Proof. vm_compute. reflexivity. Qed.

Lemma trie_blocks_ok : after_any_trie_history (λ _ cs tr _, ∀ t al, cs = Some (t, al) →
  tri_node_count t = al_count al - xheld tr.*1 ∧
  tri_node_count t = Z.of_nat (inner_count (keys (xset tr.*1))) ∧
  (xset tr.*1 = [] → tri_node_count t = 0)).
Proof.
  apply xhist_any. intros om live cs tr m' (s & own & Hc & _ & _ & Hend) t al ->. pose proof (xgood_ok _ _ _ _ Hc) as (_ & He & Hb).
  destruct (xs_cfg s) as [[bs bl]|]; [|by destruct Hend]. destruct Hend as (? & ? & [= <- <-] & _ & H2 & H3). rewrite -Hb -He H2.
  split; [lia|]. split; [done|]. intros ->. done.
Qed.

Lemma trie_usage_ok : after_any_trie_history (λ _ _ tr _, ∀ tr0 a tr1, tr = tr0 ++ (XUsage, a) :: tr1 →
  let es := xset tr0.*1 in
  a = KWord (32 * Z.of_nat (length es) + 64 * Z.of_nat (inner_count (keys es)))).
Proof.
  apply xhist_any. intros om live cs tr m' (s & own & Hc & _) tr0 a tr1 ->.
  apply correct_app in Hc as (s1 & Hc1 & Hc2). inversion Hc2 as [|? ? ? s2 ? ? Hp Hc3]; subst.
  pose proof (xgood_ok _ _ _ _ Hc1) as (_ & <- & _). by destruct Hp as [_ [-> _]].
Qed.

Lemma trie_done_ok : after_any_trie_history (λ live cs tr m', cs = None → heap_live m' live).
Proof.
  apply xhist_any. intros om live cs tr m' (s & own & Hc & Hh & _ & Hend) ->.
  assert (Hl : ∀ tr s, correct xboth (xstate0 om live) tr s → xs_live s = live).
  { clear. intros tr. induction tr as [|[o a] tr IH] using rev_ind; intros s Hc; [by inversion Hc|].
    apply correct_snoc in Hc as (s1 & Hc & [_ Hp]). apply IH in Hc. destruct o; simpl in Hp; naive_solver. }
  rewrite (Hl _ _ Hc) in Hh. destruct (xs_cfg s) as [[bs bl]|]; [by destruct Hend as (? & ? & ? & _)|]. destruct Hend as [_ ->]. by rewrite left_id_L in Hh.
Qed.

Lemma trie_no_ub om tb live m fuel c : trie_start om tb live m → (10 ≤ fuel)%nat →
  allowed xpre xpost (xstate0 om live) c →
  run (xstep fuel tb) None c m ≠ UB ∧ run (xstep fuel tb) None c m ≠ Fuel.
Proof.
  intros H1 H2 H3. pose proof (trie_history om tb live m fuel c H1 H2 H3) as H.
  destruct (run (xstep fuel tb) None c m); done.
Qed.

(** ** Constant number of steps *)
Lemma trie_constant_steps om tb live m c :
  trie_start om tb live m → allowed xpre xpost (xstate0 om live) c →
  safe (run (xstep 10 tb) None c m) (λ r m', trie_end om live r.1 r.2 m').
Proof.
  intros Hs Ha. pose proof (trie_history om tb live m 10 c Hs ltac:(lia) Ha) as H.
  unfold safe in *. destruct (run (xstep 10 tb) None c m); try done. by destruct H.
Qed.
