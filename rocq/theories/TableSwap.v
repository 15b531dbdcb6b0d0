(** * The hashtables are interchangeable: proof of C57. *)
From Verif Require Export TableProps HashTblProof HashDynProof HashLinProof.
Global Open Scope Z_scope.

(** ** Vocabulary *)

(** A client all of whose operations are in [P], whatever the answers are. *)
Fixpoint uses_only {op out : Type} (P : op -> Prop) (c : prog op out) : Prop :=
  match c with
  | Done => True
  | Do o k => P o /\ forall a, uses_only P (k a)
  end.

(** The operations whose answer does not show the order of the buckets. *)
Definition fixed_answer (o : top) : Prop :=
  match o with
  | TBucket _ | TForeach | TForeachArg _ | TForeachFree => False
  | _ => True
  end.

(** The three hashtables *)
Inductive a_hashtable : table -> Prop :=
| a_hashtable_fixed : a_hashtable hashtable_table
| a_hashtable_dyn : a_hashtable hashdyn_table
| a_hashtable_lin : a_hashtable hashlin_table.

(** ** Specifications that leave no choice *)
Section determined.
  Context {op out cst sst : Type}.
  Variable step : cst → op → M (cst * out).
  Variable pre : sst → op → Prop.
  Variable post : sst → op → out → sst → Prop.
  Variable only : op → Prop.
  Variable inv : sst → Prop.
  Hypothesis determined : ∀ s o a1 s1 a2 s2, inv s → only o → pre s o →
    post s o a1 s1 → post s o a2 s2 → a1 = a2 ∧ s1 = s2 ∧ inv s1.

  (** The transcript of a run of the client *)
  Fixpoint produced (c : prog op out) (tr : list (op * out)) : Prop :=
    match c, tr with
    | Done, [] => True
    | Do o k, (o', a) :: tr => o' = o ∧ produced (k a) tr
    | _, _ => False
    end.

  Lemma run_produced c : ∀ cs m r m', run step cs c m = Ok r m' → produced c r.2.
  Proof.
    induction c as [|o k IH]; intros cs m r m' Hr; simpl in Hr.
    - by injection Hr as <- <-.
    - rewrite /mbind /M_bind in Hr. destruct (step cs o m) as [x m1| | |]; try done.
      destruct (run step x.1 (k x.2) m1) as [y m2| | |] eqn:E; try done. injection Hr as <- <-.
      split; [done|]. by eapply IH.
  Qed.

  Lemma same_transcript c : ∀ s tr1 tr2 s1 s2, inv s → uses_only only c → allowed pre post s c →
    produced c tr1 → produced c tr2 → correct post s tr1 s1 → correct post s tr2 s2 → tr1 = tr2 ∧ s1 = s2.
  Proof.
    induction c as [|o k IH]; intros s tr1 tr2 s1 s2 Hi Hu Ha Hp1 Hp2 Hc1 Hc2.
    - destruct tr1; [|done]. destruct tr2; [|done]. inversion Hc1. inversion Hc2. by subst.
    - destruct tr1 as [|[o1 a1] tr1]; [done|]. destruct tr2 as [|[o2 a2] tr2]; [done|].
      destruct Hp1 as [-> Hp1], Hp2 as [-> Hp2], Hu as [Ho Hu], Ha as [Hpre Ha].
      inversion Hc1 as [|? ? ? t1 ? ? Hq1 Hc1']; subst. inversion Hc2 as [|? ? ? t2 ? ? Hq2 Hc2']; subst.
      destruct (determined s o a1 t1 a2 t2 Hi Ho Hpre Hq1 Hq2) as (-> & -> & Hi').
      edestruct (IH a2 t2 tr1 tr2) as [-> ->]; eauto.
  Qed.
End determined.

(** ** The hashtables *)
Definition tab_inv (s : tstate) : Prop :=
  match ts_tab s with
  | TabEs es => NoDup (en_p <$> es) ∧ ∀ e, e ∈ es → en_p e ∉ ts_free s
  | _ => True
  end.

Lemma split_unique {A} (P : A → Prop) l1 x l2 l1' x' l2' :
  l1 ++ x :: l2 = l1' ++ x' :: l2' → Forall (λ y, ¬ P y) l1 → Forall (λ y, ¬ P y) l1' → P x → P x' →
  l1 = l1' ∧ x = x' ∧ l2 = l2'.
Proof.
  revert l1'. induction l1 as [|y l1 IH]; intros [|y' l1'] E H1 H2 Hx Hx'; simpl in E.
  - by injection E as <- <-.
  - injection E as E1 E2. subst y'. by inversion H2.
  - injection E as E1 E2. subst y. by inversion H1.
  - injection E as <- E. inversion H1; subst. inversion H2; subst. destruct (IH l1') as (-> & -> & ->); auto.
Qed.

Lemma split_none {A} (P : A → Prop) l1 x l2 : Forall (λ y, ¬ P y) (l1 ++ x :: l2) → P x → False.
Proof. intros H Hx. rewrite Forall_app Forall_cons in H. tauto. Qed.

Lemma without_inv es1 e es2 (fr : gset Z) : NoDup (en_p <$> (es1 ++ e :: es2)) → (∀ x, x ∈ es1 ++ e :: es2 → en_p x ∉ fr) →
  NoDup (en_p <$> (es1 ++ es2)) ∧ ∀ x, x ∈ es1 ++ es2 → en_p x ∉ fr ∪ {[en_p e]}.
Proof.
  intros Hn Hf. rewrite fmap_app fmap_cons in Hn. rewrite -(Permutation_middle (en_p <$> es1)) in Hn.
  apply NoDup_cons in Hn as [He Hn]. rewrite -fmap_app in He, Hn. split; [done|].
  intros x Hx. apply not_elem_of_union. split; [apply Hf; set_solver|].
  rewrite elem_of_singleton. intros E. apply He. rewrite -E. by apply elem_of_list_fmap_1.
Qed.

Lemma table_determined om K s o a1 s1 a2 s2 : tab_inv s → fixed_answer o → tpre om K s o →
  tpost s o a1 s1 → tpost s o a2 s2 → a1 = a2 ∧ s1 = s2 ∧ tab_inv s1.
Proof.
  intros Hi Ho Hpre H1 H2. destruct o as [n|p d h|f g arg h|p|f g arg h|h| | |arg| |]; try done; simpl in *.
  - destruct H1 as [-> ->], H2 as [-> ->]. split; [done|]. split; [done|]. split; [constructor|set_solver].
  - destruct H1 as (es & E & -> & ->), H2 as (es' & E' & -> & ->). rewrite E in E'. injection E' as <-.
    split; [done|]. split; [done|]. rewrite /tab_inv E in Hi. destruct Hi as [Hn Hf], Hpre as (Hp & _).
    split; simpl.
    + rewrite fmap_app. apply NoDup_app. split; [done|]. split; [|apply NoDup_singleton].
      intros x (e & -> & He)%elem_of_list_fmap Ee%elem_of_list_singleton. simpl in Ee. apply (Hf e He). by rewrite Ee.
    + intros e [He| ->%elem_of_list_singleton]%elem_of_app; [|set_solver]. specialize (Hf e He). set_solver.
  - destruct H1 as [(es1 & e & es2 & E & He & Hes & -> & ->)|(es & E & Hes & -> & ->)],
      H2 as [(es1' & e' & es2' & E' & He' & Hes' & -> & ->)|(es' & E' & Hes' & -> & ->)];
      rewrite E in E'; injection E' as E'.
    + destruct (split_unique _ _ _ _ _ _ _ E' Hes Hes' He He') as (-> & -> & ->). split; [done|]. split; [done|].
      rewrite /tab_inv E in Hi. destruct Hi as [Hn Hf]. by apply without_inv.
    + subst es'. exfalso. by eapply (split_none (accepts g arg h)).
    + subst es. exfalso. by eapply (split_none (accepts g arg h)).
    + by subst es'.
  - destruct H1 as (es1 & d & h & es2 & E & -> & ->), H2 as (es1' & d' & h' & es2' & E' & -> & ->).
    rewrite E in E'. injection E' as E'. rewrite /tab_inv E in Hi. destruct Hi as [Hn Hf].
    assert (Hf1 : ∀ l e l', NoDup (en_p <$> (l ++ e :: l')) → Forall (λ x, en_p x ≠ en_p e) l).
    { intros l e l' Hnd. rewrite fmap_app in Hnd. apply NoDup_app in Hnd as (_ & Hd & _).
      apply Forall_forall. intros x Hx Hxe. apply (Hd (en_p x)); [by apply elem_of_list_fmap_1|]. rewrite Hxe /=. set_solver. }
    pose proof (Hf1 _ _ _ Hn) as Ha. rewrite E' in Hn. pose proof (Hf1 _ _ _ Hn) as Hb. rewrite -E' in Hn. simpl in Ha, Hb.
    destruct (split_unique (λ x, en_p x = p) _ _ _ _ _ _ E' Ha Hb) as (-> & Hx & ->); [done|done|].
    injection Hx as -> ->. split; [done|]. split; [done|]. by apply (without_inv es1' (Ent p d' h') es2').
  - destruct H1 as [-> H1], H2 as [-> H2]. split; [|done].
    destruct H1 as [(es1 & e & es2 & E & He & Hes & ->)|(es & E & Hes & ->)],
      H2 as [(es1' & e' & es2' & E' & He' & Hes' & ->)|(es' & E' & Hes' & ->)];
      rewrite E in E'; injection E' as E'.
    + by destruct (split_unique _ _ _ _ _ _ _ E' Hes Hes' He He') as (-> & -> & ->).
    + subst es'. exfalso. by eapply (split_none (accepts g arg h)).
    + subst es. exfalso. by eapply (split_none (accepts g arg h)).
    + by subst es'.
  - destruct H1 as (es & E & -> & ->), H2 as (es' & E' & -> & ->). rewrite E in E'. injection E' as <-. done.
  - destruct H1 as [-> ->], H2 as [-> ->]. done.
Qed.

Lemma any_table_correct T om K t live m fuel c m' : a_hashtable T → ∀ r,
  table_start om K t live m → (size om ≤ fuel)%nat → allowed (tpre om K) tpost (tstate0 om live) c →
  run (tstep T fuel t) None c m = Ok r m' → ∃ s, correct tpost (tstate0 om live) r.2 s.
Proof.
  intros HT. destruct HT; intros r Hs Hf Ha Hr.
  - pose proof (hashtable_history om K t live m fuel c Hs Hf Ha) as H. rewrite Hr in H.
    destruct H as [(s & ? & ? & _) _]. by exists s.
  - pose proof (hashdyn_history om K t live m fuel c Hs Hf Ha) as H. rewrite Hr in H.
    destruct H as [(s & ? & ? & _) _]. by exists s.
  - pose proof (hashlin_history om K t live m fuel c Hs Hf Ha) as H. rewrite Hr in H.
    destruct H as [(s & ? & ? & _) _]. by exists s.
Qed.

Lemma tables_interchangeable T1 T2 om K t1 t2 live m1 m2 fuel1 fuel2 c r1 m1' r2 m2' :
  a_hashtable T1 → a_hashtable T2 →
  table_start om K t1 live m1 → table_start om K t2 live m2 → (size om ≤ fuel1)%nat → (size om ≤ fuel2)%nat →
  allowed (tpre om K) tpost (tstate0 om live) c → uses_only fixed_answer c →
  run (tstep T1 fuel1 t1) None c m1 = Ok r1 m1' → run (tstep T2 fuel2 t2) None c m2 = Ok r2 m2' → r1.2 = r2.2.
Proof.
  intros HT1 HT2 Hs1 Hs2 Hf1 Hf2 Ha Hu Hr1 Hr2.
  destruct (any_table_correct _ _ _ _ _ _ _ _ _ HT1 _ Hs1 Hf1 Ha Hr1) as [s1 Hc1].
  destruct (any_table_correct _ _ _ _ _ _ _ _ _ HT2 _ Hs2 Hf2 Ha Hr2) as [s2 Hc2].
  apply (same_transcript (tpre om K) tpost fixed_answer tab_inv (table_determined om K) c
    (tstate0 om live) r1.2 r2.2 s1 s2); try done; by eapply run_produced.
Qed.
