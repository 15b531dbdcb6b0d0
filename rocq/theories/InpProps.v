(** * Consequences of the history theorem of the inplace trie *)
From Verif Require Export InpHist TrieProps.
Global Open Scope Z_scope.

Definition igood (s : istate) (ops : list iop) : Prop := kok (is_k s) ∧ ks_es (is_k s) = iset ops.

Lemma iset_snoc ops o : iset (ops ++ [o]) = iset_step (iset ops) o.
Proof. by rewrite /iset foldl_app. Qed.

Lemma igood_step s ops o a s' : igood s ops → iboth s o a s' → igood s' (ops ++ [o]) ∧ ∀ k, o = IOp k → a = kanswer (iset ops) k.
Proof.
  intros (Hk & Hes) [Hpre Hpost]. rewrite /igood iset_snoc -Hes. destruct o; simpl in *.
  - destruct Hpost as [-> ->]. simpl. split; [|done]. split; [|done]. split; [constructor|]. intros p _ Hp. by apply elem_of_nil in Hp.
  - destruct Hpost as (k' & Hpost & ->). destruct Hpre as [Hc Hpre]. destruct (kstep_ok _ _ _ _ Hk Hpre Hpost) as (H1 & H2 & H3).
    simpl. split; [|by intros ? [= <-]]. done.
  - destruct Hpost as [-> ->]. done.
Qed.

Lemma igood_ok om tr s : correct iboth (istate0 om) tr s → igood s tr.*1.
Proof.
  revert s. induction tr as [|[o a] tr IH] using rev_ind; intros s Hc.
  - inversion Hc; subst. split; [|done]. split; [constructor|]. intros p _ Hp. by apply elem_of_nil in Hp.
  - apply correct_snoc in Hc as (s1 & Hc & Hb). rewrite fmap_app. simpl. eapply igood_step; [by apply IH|done].
Qed.

Lemma ihist_any (Q : option inptrie → list (iop * kout) → Prop) :
  (∀ om cs tr, inp_end_both om cs tr → Q cs tr) → after_any_inp_history Q.
Proof.
  intros HQ om tb m fuel c Hl Hf Ha. eapply succeeds_mono; [by apply inp_history_both|]. simpl. intros r m' [H _]. by eapply HQ.
Qed.

Lemma inp_answers_ok : after_any_inp_history (λ _ tr, ∀ tr0 o a tr1, tr = tr0 ++ (IOp o, a) :: tr1 → a = kanswer (iset tr0.*1) o).
Proof.
  apply ihist_any. intros om cs tr (s & Hc & _) tr0 o a tr1 ->.
  apply correct_app in Hc as (s1 & Hc1 & Hc2). inversion Hc2 as [|? ? ? s2 ? ? Hp Hc3]; subst.
  eapply igood_step; [by eapply igood_ok|done|done].
Qed.

Lemma inp_bucket_ok : after_any_inp_history (λ _ tr, ∀ tr0 k a tr1,
  (tr = tr0 ++ (IOp (KBucket k), a) :: tr1 → a = KNodes ((λ e, (te_p e, te_d e)) <$> with_key k (iset tr0.*1))) ∧
  (tr = tr0 ++ (IOp (KSearch k), a) :: tr1 →
     a = KWord (match with_key k (iset tr0.*1) with e :: _ => te_d e | [] => 0 end))).
Proof.
  intros om tb m fuel c H1 H2 H3. eapply succeeds_mono; [exact (inp_answers_ok om tb m fuel c H1 H2 H3)|]. simpl. intros r m' HA tr0 k a tr1.
  split; intros Htr; by apply HA in Htr.
Qed.

Lemma inp_remove_ok : after_any_inp_history (λ _ tr, ∀ tr0 k a tr1, tr = tr0 ++ (IOp (KRemove k), a) :: tr1 →
  let es := iset tr0.*1 in let es' := iset (tr0.*1 ++ [IOp (KRemove k)]) in
  (∃ es1 e es2, es = es1 ++ e :: es2 ∧ es' = es1 ++ es2 ∧ te_k e = k ∧ Forall (λ e, te_k e ≠ k) es1 ∧ a = KWord (te_d e)) ∨
  (Forall (λ e, te_k e ≠ k) es ∧ es' = es ∧ a = KWord 0)).
Proof.
  intros om tb m fuel c H1 H2 H3. eapply succeeds_mono; [exact (inp_answers_ok om tb m fuel c H1 H2 H3)|]. simpl. intros r m' HA tr0 k a tr1 Htr.
  apply HA in Htr. rewrite iset_snoc. simpl in *. destruct (with_key k (iset tr0.*1)) as [|e l] eqn:Hw.
  - apply with_key_nil in Hw. right. rewrite remove_first_none //.
  - destruct (with_key_first _ _ _ _ Hw) as (es1 & es2 & Hes & Hke & HF & _). left. exists es1, e, es2. rewrite Hes remove_first_split //.
Qed.

Lemma inp_remove_existing_ok : after_any_inp_history (λ _ tr, ∀ tr0 p a tr1, tr = tr0 ++ (IOp (KRemoveExisting p), a) :: tr1 →
  let es := iset tr0.*1 in let es' := iset (tr0.*1 ++ [IOp (KRemoveExisting p)]) in
  ∃ es1 d k es2, es = es1 ++ TEnt p d k :: es2 ∧ es' = es1 ++ es2 ∧ a = KWord d).
Proof.
  apply ihist_any. intros om cs tr (s & Hc & _) tr0 p a tr1 ->.
  apply correct_app in Hc as (s1 & Hc1 & Hc2). inversion Hc2 as [|? ? ? s2 ? ? Hp Hc3]; subst.
  pose proof (igood_ok _ _ _ Hc1) as Hg. destruct (igood_step _ _ _ _ _ Hg Hp) as [(_ & <-) _]. destruct Hg as (_ & <-).
  destruct Hp as [_ (k' & (es1 & d & k & es2 & H1 & H2 & ->) & ->)]. exists es1, d, k, es2. done.
Qed.

Lemma inp_count_ok : after_any_inp_history (λ cs tr,
  (∀ tr0 a tr1, tr = tr0 ++ (IOp KCount, a) :: tr1 → a = KWord (Z.of_nat (length (iset tr0.*1)))) ∧
  (∀ t, cs = Some t → inp_count t = Z.of_nat (length (iset tr.*1)))).
Proof.
  apply ihist_any. intros om cs tr (s & Hc & Hend). pose proof (igood_ok _ _ _ Hc) as Hg. split.
  - intros tr0 a tr1 ->. apply correct_app in Hc as (s1 & Hc1 & Hc2). inversion Hc2 as [|? ? ? s2 ? ? Hp Hc3]; subst.
    destruct (igood_step _ _ _ _ _ (igood_ok _ _ _ Hc1) Hp) as [_ Hk]. exact (Hk _ eq_refl).
  - intros t ->. destruct Hg as (_ & <-). destruct (is_init s); [|done]. by destruct Hend as (? & [= <-] & ?).
Qed.

Lemma inp_usage_ok : after_any_inp_history (λ _ tr, ∀ tr0 a tr1, tr = tr0 ++ (IUsage, a) :: tr1 →
  a = KWord (64 * Z.of_nat (length (iset tr0.*1)))).
Proof.
  apply ihist_any. intros om cs tr (s & Hc & _) tr0 a tr1 ->.
  apply correct_app in Hc as (s1 & Hc1 & Hc2). inversion Hc2 as [|? ? ? s2 ? ? Hp Hc3]; subst.
  pose proof (igood_ok _ _ _ Hc1) as (_ & <-). by destruct Hp as [_ [-> _]].
Qed.

Lemma inp_no_ub om tb m fuel c : inp_start om tb m → (14 ≤ fuel)%nat →
  allowed ipre ipost (istate0 om) c → ∃ r m', run (istep fuel tb) None c m = Ok r m'.
Proof.
  intros H1 H2 H3. pose proof (inp_history om tb m fuel c H1 H2 H3) as H.
  destruct (run (istep fuel tb) None c m); try done. eauto.
Qed.

(** ** Constant number of steps *)
Lemma inp_constant_steps om tb m c :
  inp_start om tb m → allowed ipre ipost (istate0 om) c →
  succeeds (run (istep 14 tb) None c m) (λ r _, inp_end om r.1 r.2).
Proof.
  intros Hs Ha. pose proof (inp_history om tb m 14 c Hs ltac:(lia) Ha) as H.
  unfold succeeds in *. destruct (run (istep 14 tb) None c m); try done. by destruct H.
Qed.
