(** * Tries and hashtables used with keys give the same answers: proof of C61. *)
From Verif Require Export TableSwap TrieProps InpProps.
Global Open Scope Z_scope.

(** ** Vocabulary *)

(** What a client observes, from its operations alone: [es] are the elements
    inserted and not removed, in insertion order. *)
Fixpoint reference (es : list tent) (c : prog kop kout) : list kout :=
  match c with
  | Done => []
  | Do o k => kanswer es o :: reference (kset_step es o) (k (kanswer es o))
  end.

(** A client of a container with keys as a client of another interface: [g]
    performs its operations and [back] reads the answers. *)
Fixpoint via {op out : Type} (g : kop -> op) (back : out -> kout) (c : prog kop kout) : prog op out :=
  match c with
  | Done => Done
  | Do o k => Do (g o) (fun a => via g back (k (back a)))
  end.

Definition trie_client (bs al : Z) (c : prog kop kout) : prog xop kout :=
  Do (XInit bs al) (fun _ => via XOp id c).
Definition inp_client (c : prog kop kout) : prog iop kout := Do IInit (fun _ => via IOp id c).

(** A hashtable used with keys: the hash is the key, and the comparison
    accepts every element with the same hash. *)
Definition any_elem (arg obj : Z) : M Z := mret 0.
Definition top_of (o : kop) : top :=
  match o with
  | KInsert p d k => TInsert p d k
  | KRemove k => TRemove any_elem (fun _ _ => 0) 0 k
  | KRemoveExisting p => TRemoveExisting p
  | KSearch k => TSearch any_elem (fun _ _ => 0) 0 k
  | KBucket k => TBucket k
  | KCount => TCount
  end.
Definition kout_of (a : tout) : kout :=
  match a with
  | TOWord z | TOFound z _ => KWord z
  | TONodes l => KNodes l
  | TONone | TOData _ => KNone
  end.
Definition table_client (n : Z) (c : prog kop kout) : prog top tout :=
  Do (TInit n) (fun _ => via top_of kout_of c).

(** The bucket of a hashtable may also hold elements with other hashes. *)
Definition not_bucket (o : kop) : Prop := match o with KBucket _ => False | _ => True end.

(** ** Clients through another interface *)
Section via.
  Context {op out sst : Type}.
  Variable pre : sst → op → Prop.
  Variable post : sst → op → out → sst → Prop.
  Variable g : kop → op.
  Variable back : out → kout.
  Variable only : kop → Prop.
  Variable rel : sst → kstate → Prop.
  Hypothesis Hpre : ∀ s k o, rel s k → only o → kpre k o → pre s (g o).
  Hypothesis Hpost : ∀ s k o a s', rel s k → only o → kpre k o → post s (g o) a s' →
    ∃ k', kpost k o (back a) k' ∧ rel s' k'.

  Lemma via_allowed c : ∀ s k, rel s k → uses_only only c → allowed kpre kpost k c → allowed pre post s (via g back c).
  Proof.
    induction c as [|o kk IH]; intros s k Hr Hu Ha; [done|]. destruct Hu as [Ho Hu], Ha as [Hp Ha]. split; [by eapply Hpre|].
    intros a s' Hq. destruct (Hpost s k o a s' Hr Ho Hp Hq) as (k' & Hk & Hr'). eapply IH; eauto.
  Qed.

  Lemma via_answers c : ∀ s k tr s', rel s k → kok k → uses_only only c → allowed kpre kpost k c →
    produced (via g back c) tr → correct post s tr s' → back <$> tr.*2 = reference (ks_es k) c.
  Proof.
    induction c as [|o kk IH]; intros s k tr s' Hr Hok Hu Ha Hp Hc.
    - by destruct tr.
    - destruct tr as [|[o' a] tr]; [done|]. destruct Hp as [-> Hp], Hu as [Ho Hu], Ha as [Hpr Ha].
      inversion Hc as [|? ? ? s1 ? ? Hq Hc']; subst.
      destruct (Hpost s k o a s1 Hr Ho Hpr Hq) as (k' & Hk & Hr').
      destruct (kstep_ok _ _ _ _ Hok Hpr Hk) as (Hok' & Hes & Ha'). rewrite !fmap_cons /=. f_equal; [done|].
      rewrite -Ha' -Hes. eapply IH; eauto.
  Qed.
End via.

Lemma kok0 fr : kok (KState fr []).
Proof. split; [constructor|]. intros p _. apply not_elem_of_nil. Qed.
Lemma uses_all {op out} (c : prog op out) : uses_only (λ _, True) c.
Proof. by induction c. Qed.

(** ** The trie *)
Lemma trie_reference om tb live m fuel bs al c : trie_start om tb live m → (10 ≤ fuel)%nat →
  xpre (xstate0 om live) (XInit bs al) → allowed kpre kpost (KState (dom om) []) c →
  safe (run (xstep fuel tb) None (trie_client bs al c) m) (λ r _, r.2.*2 = KNone :: reference [] c).
Proof.
  intros Hs Hf Hi Ha. set (rel := λ (s : xstate) k, xs_k s = k ∧ is_Some (xs_cfg s)).
  assert (H1 : ∀ s k o, rel s k → True → kpre k o → xpre s (XOp o)) by (intros s k o [<- ?] _ ?; done).
  assert (H2 : ∀ s k o a s', rel s k → True → kpre k o → xpost s (XOp o) a s' → ∃ k', kpost k o (id a) k' ∧ rel s' k').
  { intros s k o a s' [<- ?] _ _ (k' & ? & ->). by exists k'. }
  assert (Hal : allowed xpre xpost (xstate0 om live) (trie_client bs al c)).
  { split; [done|]. intros a s' [_ ->]. eapply (via_allowed xpre xpost XOp id (λ _, True) rel); eauto using uses_all. by split. }
  pose proof (trie_history om tb live m fuel _ Hs Hf Hal) as H.
  destruct (run _ _ _ _) as [r m'| | |] eqn:E; try done. destruct H as [(s' & own & Hc & _) _].
  apply run_produced in E. destruct r as [cs [|[o a] tr]]; [done|]. destruct E as [-> E].
  inversion Hc as [|? ? ? s1 ? ? Hq Hc']; subst. destruct Hq as [-> ->]. simpl. f_equal.
  assert (Hr : rel (XState (KState (dom om) []) (Some (real_size bs al, ∅)) live) (KState (dom om) [])) by (split; [done|by eexists]).
  pose proof (via_answers xpost XOp id (λ _, True) rel H2 c _ _ tr s' Hr (kok0 _) (uses_all c) Ha E Hc') as Hx.
  by rewrite list_fmap_id in Hx.
Qed.

(** ** The inplace trie *)
Lemma inp_reference om tb m fuel c : inp_start om tb m → (14 ≤ fuel)%nat →
  allowed kpre kpost (KState (dom om) []) c →
  succeeds (run (istep fuel tb) None (inp_client c) m) (λ r _, r.2.*2 = KNone :: reference [] c).
Proof.
  intros Hs Hf Ha. set (rel := λ (s : istate) k, is_k s = k ∧ is_init s = true).
  assert (H1 : ∀ s k o, rel s k → True → kpre k o → ipre s (IOp o)) by (intros s k o [<- ?] _ ?; done).
  assert (H2 : ∀ s k o a s', rel s k → True → kpre k o → ipost s (IOp o) a s' → ∃ k', kpost k o (id a) k' ∧ rel s' k').
  { intros s k o a s' [<- ?] _ _ (k' & ? & ->). by exists k'. }
  assert (H0 : dom om ∪ list_to_set (te_p <$> []) = dom om) by set_solver.
  assert (Hal : allowed ipre ipost (istate0 om) (inp_client c)).
  { split; [done|]. intros a s' [_ ->]. eapply (via_allowed ipre ipost IOp id (λ _, True) rel); eauto using uses_all.
    split; [|done]. simpl. by rewrite H0. }
  pose proof (inp_history om tb m fuel _ Hs Hf Hal) as H.
  destruct (run _ _ _ _) as [r m'| | |] eqn:E; try done. destruct H as [(s' & Hc & _) _].
  apply run_produced in E. destruct r as [cs [|[o a] tr]]; [done|]. destruct E as [-> E].
  inversion Hc as [|? ? ? s1 ? ? Hq Hc']; subst. destruct Hq as [-> ->]. simpl. f_equal.
  simpl in Hc'. rewrite H0 in Hc'.
  assert (Hr : rel (IState (KState (dom om) []) true) (KState (dom om) [])) by done.
  pose proof (via_answers ipost IOp id (λ _, True) rel H2 c _ _ tr s' Hr (kok0 _) (uses_all c) Ha E Hc') as Hx.
  by rewrite list_fmap_id in Hx.
Qed.

(** ** The hashtables *)
Definition ent_of (e : tent) : ent := Ent (te_p e) (te_d e) (te_k e).
Definition trel (s : tstate) (k : kstate) : Prop := TableSpec.ts_free s = ks_free k ∧ ts_tab s = TabEs (ent_of <$> ks_es k).

Lemma trel_pre om K s k o : trel s k → not_bucket o → kpre k o → tpre om K s (top_of o).
Proof.
  assert (Hw : ∀ h, 0 ≤ h < 2 ^ 32 → word h) by (intros h Hh; rewrite /word; lia).
  destruct s as [fr tab lv], k as [fr' es]. intros [E1 E2] Ho Hp. simpl in *. subst. destruct o as [p d k|k|p|k|k| ]; simpl in *.
  - destruct Hp as [? ?]. split; [done|]. split; [by eexists|auto].
  - split; [|auto]. eexists. split; [reflexivity|]. by intros e _ _ m _.
  - eexists. split; [reflexivity|]. by rewrite -list_fmap_compose.
  - split; [|auto]. eexists. split; [reflexivity|]. by intros e _ _ m _.
  - done.
  - by eexists.
Qed.

Lemma accepts_any k es : Forall (λ e, ¬ accepts (λ _ _, 0) 0 k e) (ent_of <$> es) → Forall (λ e, te_k e ≠ k) es.
Proof. intros H. rewrite Forall_fmap in H. eapply Forall_impl; [exact H|]. intros e He Hk. by apply He. Qed.

Lemma trel_post s k o a s' : trel s k → not_bucket o → kpre k o → tpost s (top_of o) a s' →
  ∃ k', kpost k o (kout_of a) k' ∧ trel s' k'.
Proof.
  destruct s as [fr tab lv], k as [fr' es]. intros [E1 E2] Ho Hp Hq. simpl in *. subst. destruct o as [p d k|k|p|k|k| ]; simpl in *.
  - destruct Hq as (es' & [= <-] & -> & ->). eexists. split; [split; reflexivity|]. split; [done|]. simpl. by rewrite fmap_app.
  - destruct Hq as [(es1 & e & es2 & E & [He _] & Hes & -> & ->)|(es' & [= <-] & Hes & -> & ->)].
    + injection E as (l1 & l2 & -> & (x & l2' & -> & -> & ->)%symmetry%fmap_cons_inv & ->)%fmap_app_inv.
      eexists. split; [left; exists l1, x, l2'; split; [done|]; split; [done|]; split; [by apply accepts_any|]; split; reflexivity|].
      split; [done|]. simpl. by rewrite fmap_app.
    + eexists. split; [right; split; [by apply accepts_any|]; split; reflexivity|]. done.
  - destruct Hq as (es1 & d & h & es2 & E & -> & ->).
    injection E as (l1 & l2 & -> & (x & l2' & Hx & -> & ->)%symmetry%fmap_cons_inv & ->)%fmap_app_inv.
    destruct x as [p' d' k']. injection Hx as -> -> ->.
    eexists. split; [exists l1, d', k', l2'; split; [done|]; split; reflexivity|]. split; [done|]. simpl. by rewrite fmap_app.
  - destruct Hq as [-> Hq]. eexists. split; [split; [|reflexivity]|done].
    destruct Hq as [(es1 & e & es2 & E & [He _] & Hes & ->)|(es' & [= <-] & Hes & ->)]; simpl.
    + injection E as (l1 & l2 & -> & (x & l2' & -> & -> & ->)%symmetry%fmap_cons_inv & ->)%fmap_app_inv.
      rewrite with_key_app (with_key_Forall k l1); [|by apply accepts_any]. rewrite /= with_key_cons decide_True //.
    + rewrite with_key_Forall //. by apply accepts_any.
  - done.
  - destruct Hq as (es' & [= <-] & -> & ->). eexists. split; [split; [|reflexivity]|done]. simpl. by rewrite fmap_length.
Qed.

Lemma any_table_safe T om K t live m fuel c : a_hashtable T →
  table_start om K t live m → (size om ≤ fuel)%nat → allowed (tpre om K) tpost (tstate0 om live) c →
  safe (run (tstep T fuel t) None c m) (λ r _, ∃ s, correct tpost (tstate0 om live) r.2 s).
Proof.
  intros HT. destruct HT; intros Hs Hf Ha.
  - eapply safe_mono; [exact (hashtable_history om K t live m fuel c Hs Hf Ha)|]. intros r m' [(s & ? & ? & _) _]. by exists s.
  - eapply safe_mono; [exact (hashdyn_history om K t live m fuel c Hs Hf Ha)|]. intros r m' [(s & ? & ? & _) _]. by exists s.
  - eapply safe_mono; [exact (hashlin_history om K t live m fuel c Hs Hf Ha)|]. intros r m' [(s & ? & ? & _) _]. by exists s.
Qed.

Lemma table_reference T om K t live m fuel n c : a_hashtable T →
  table_start om K t live m → (size om ≤ fuel)%nat → 0 ≤ n ≤ 2 ^ 60 →
  allowed kpre kpost (KState (dom om) []) c → uses_only not_bucket c →
  safe (run (tstep T fuel t) None (table_client n c) m) (λ r _, kout_of <$> r.2.*2 = KNone :: reference [] c).
Proof.
  intros HT Hs Hf Hn Ha Hu.
  assert (Hal : allowed (tpre om K) tpost (tstate0 om live) (table_client n c)).
  { split; [by split|]. intros a s' [_ ->].
    eapply (via_allowed (tpre om K) tpost top_of kout_of not_bucket trel); eauto using trel_pre, trel_post. done. }
  pose proof (any_table_safe T om K t live m fuel _ HT Hs Hf Hal) as H.
  destruct (run _ _ _ _) as [r m'| | |] eqn:E; try done. destruct H as (s' & Hc).
  apply run_produced in E. destruct r as [cs [|[o a] tr]]; [done|]. destruct E as [-> E].
  inversion Hc as [|? ? ? s1 ? ? Hq Hc']; subst. destruct Hq as [-> ->]. simpl. f_equal.
  assert (Hr : trel (TState (dom om) (TabEs []) live) (KState (dom om) [])) by done.
  exact (via_answers tpost top_of kout_of not_bucket trel trel_post c _ _ tr s' Hr (kok0 _) Hu Ha E Hc').
Qed.
