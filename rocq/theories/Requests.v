(** * Bounds on what the library asks from malloc. *)
From Verif Require Export RequestSpec RunAll HashTblProof HashDynProof HashLinProof ArrayBlkProof ArrayOfProof ArrayHist.
Global Open Scope Z_scope.

(** [c] asks for at most [b] bytes at a time, and its results satisfy [Q]. *)
Definition asks {A} (b : Z) (Q : A → Prop) (c : M A) : Prop :=
  ∀ m, match c m with Ok v _ => Q v | Env n => n ≤ b | _ => True end.
Definition any {A} (_ : A) : Prop := True.

Section asks.
  Variable b : Z.
  Lemma asks_ret {A} (Q : A → Prop) v : Q v → asks b Q (mret v).
  Proof. intros H m. done. Qed.
  Lemma asks_ub {A} (Q : A → Prop) : asks b Q ub.
  Proof. done. Qed.
  Lemma asks_fuel {A} (Q : A → Prop) : asks b Q fuel_out.
  Proof. done. Qed.
  Lemma asks_bind {A B} (R : A → Prop) (Q : B → Prop) c k : asks b R c → (∀ v, R v → asks b Q (k v)) → asks b Q (c ≫= k).
  Proof.
    intros Hc Hk m. specialize (Hc m). rewrite /mbind /M_bind. destruct (c m) as [v m'| | |]; try done. by apply Hk.
  Qed.
  Lemma asks_mono {A} (R Q : A → Prop) c : asks b R c → (∀ v, R v → Q v) → asks b Q c.
  Proof. intros Hc H m. specialize (Hc m). destruct (c m); auto. Qed.
  Lemma asks_load a : asks b any (load a).
  Proof. intros m. rewrite /load. by destruct (m !! a) as [[]|]. Qed.
  Lemma asks_loadb a : asks b any (loadb a).
  Proof. intros m. rewrite /loadb. by destruct (m !! a) as [[]|]. Qed.
  Lemma asks_store a v : asks b any (store a v).
  Proof. intros m. rewrite /store. by destruct (m !! a) as [[]|]. Qed.
  Lemma asks_storeb a v : asks b any (storeb a v).
  Proof. intros m. rewrite /storeb. by destruct (m !! a) as [[]|]. Qed.
  Lemma asks_push a v : asks b any (tape_push a v).
  Proof. intros m. rewrite /tape_push. by destruct (m !! a) as [[]|]. Qed.
  Lemma asks_take a : asks b any (tape_take a).
  Proof. intros m. rewrite /tape_take. by destruct (m !! a) as [[]|]. Qed.
  Lemma asks_massert x : asks b any (massert x).
  Proof. by destruct x. Qed.
  Lemma asks_free a : asks b any (free a).
  Proof.
    intros m. rewrite /free. destruct (decide (a = 0)); [done|]. destruct (m !! HCTL) as [[| | | |h]|]; try done.
    by destruct (hc_live h !! a).
  Qed.
  Lemma asks_region r c : region_bytes r ≤ b → asks b any (alloc_region r c).
  Proof.
    intros H m. rewrite /alloc_region. destruct (m !! HCTL) as [[| | | |h]|]; try done. by destruct (decide _).
  Qed.
  Lemma asks_malloc n : 0 ≤ b → n ≤ b → asks b any (malloc n).
  Proof.
    intros H0 Hn. apply asks_region. simpl. destruct (decide (0 ≤ n)).
    - rewrite Z2Nat.id; [|by apply Z.div_pos]. pose proof (Z.mul_div_le n 8). lia.
    - assert (n / 8 < 0) by (apply Z.div_lt_upper_bound; lia). lia.
  Qed.
  Lemma asks_calloc_words n : 0 ≤ b → 8 * n ≤ b → asks b any (calloc_words n).
  Proof. intros H0 Hn. rewrite /calloc_words. destruct (decide _); [|by intros m]. apply asks_region. simpl. lia. Qed.
  Lemma asks_calloc_bytes n k : 0 ≤ b → n * k ≤ b → asks b any (calloc_bytes n k).
  Proof. intros H0 Hn. rewrite /calloc_bytes. destruct (decide _); [|by intros m]. apply asks_region. simpl. lia. Qed.
  Lemma asks_cmp t f a c : (∀ l x y, asks_nothing (f l x y)) → asks b any (tape_cmp t f a c).
  Proof.
    intros Hf m. rewrite /tape_cmp. destruct (m !! t) as [[| | |l|]|]; try done.
    destruct (f l a c m) as [| |n|] eqn:E; try done. by apply Hf in E.
  Qed.
End asks.

Ltac asks_step :=
  match goal with
  | |- asks _ _ (mret _) => apply asks_ret
  | |- any _ => exact I
  | |- asks _ _ ub => apply asks_ub
  | |- asks _ _ fuel_out => apply asks_fuel
  | |- asks _ any (load _) => apply asks_load
  | |- asks _ any (list_head _) => apply asks_load
  | |- asks _ any (loadb _) => apply asks_loadb
  | |- asks _ any (store _ _) => apply asks_store
  | |- asks _ any (storeb _ _) => apply asks_storeb
  | |- asks _ any (tape_push _ _) => apply asks_push
  | |- asks _ any (tape_take _) => apply asks_take
  | |- asks _ any (massert _) => apply asks_massert
  | |- asks _ any (free _) => apply asks_free
  | |- asks _ _ (_ ≫= _) => apply (asks_bind _ any); [|intros ? _]
  | |- asks _ _ (if ?x then _ else _) => destruct x
  | |- asks _ _ (match ?x with _ => _ end) => destruct x
  | |- asks _ _ (let _ := _ in _) => cbv zeta
  | H : context [asks _ any _] |- asks _ any _ => apply H
  end.
Ltac asks_all := repeat asks_step.

(** ** Lists and chains of a bucket *)
Section lists.
  Variable b : Z.
  Lemma asks_insert_first l p : asks b any (list_insert_first l p).
  Proof. rewrite /list_insert_first. asks_all. Qed.
  Lemma asks_insert_tail_ne l p : asks b any (list_insert_tail_not_empty l p).
  Proof. rewrite /list_insert_tail_not_empty. asks_all. Qed.
  Lemma asks_insert_tail l p d : asks b any (list_insert_tail l p d).
  Proof. pose proof asks_insert_first. pose proof asks_insert_tail_ne. rewrite /list_insert_tail. asks_all. Qed.
  Lemma asks_remove_existing l p : asks b any (list_remove_existing l p).
  Proof. rewrite /list_remove_existing. asks_all. Qed.
  Lemma asks_concat l p : asks b any (list_concat l p).
  Proof. rewrite /list_concat. asks_all. Qed.
  Lemma asks_foreach_loop fuel node func : (∀ d, asks b any (func d)) → asks b any (list_foreach_loop fuel node func).
  Proof. intros Hf. revert node. induction fuel; intros; simpl; asks_all. Qed.
  Lemma asks_walk fuel i : asks b any (list_walk fuel i).
  Proof. revert i. induction fuel; intros; simpl; asks_all. Qed.
  Lemma asks_memset a n : asks b any (memset0 a n).
  Proof. revert a. induction n; intros; simpl; asks_all. Qed.
  Lemma asks_bucket_search fuel cmp arg hash i : (∀ x y, asks b any (cmp x y)) → asks b any (bucket_search fuel cmp arg hash i).
  Proof. intros Hf. revert i. induction fuel; intros; simpl; asks_all. Qed.
  Lemma asks_bucket_remove {R} fuel cmp arg hash i (found : Z → M R) notfound :
    (∀ x y, asks b any (cmp x y)) → (∀ p, asks b any (found p)) → asks b any notfound →
    asks b any (bucket_remove fuel cmp arg hash i found notfound).
  Proof. intros Hf H1 H2. revert i. induction fuel; intros; simpl; asks_all. Qed.
  Lemma asks_buckets_foreach fuel n pos ref func : (∀ p, asks b any (ref p)) → (∀ d, asks b any (func d)) →
    asks b any (buckets_foreach fuel n pos ref func).
  Proof. intros Hr Hf. revert pos. induction n; intros; simpl; asks_all. by apply asks_foreach_loop. Qed.
End lists.

(** ** Where a run stops for lack of memory *)
Section run.
  Context {op out cst sst : Type}.
  Variables (step : cst → op → M (cst * out)) (pre : sst → op → Prop) (post : sst → op → out → sst → Prop).

  Lemma run_env (J : sst → Prop) c : ∀ cs m n, (∀ s o a s', J s → pre s o → post s o a s' → J s') →
    run step cs c m = Env n → ∃ d cs1 tr m1 o,
    run step cs (trunc d c) m = Ok (cs1, tr) m1 ∧ step cs1 o m1 = Env n ∧
    ∀ s s1, allowed pre post s c → correct post s tr s1 → pre s1 o ∧ (J s → J s1).
  Proof.
    induction c as [|o k IH]; intros cs m n HJ Hr; simpl in Hr; [done|].
    rewrite /mbind /M_bind in Hr. destruct (step cs o m) as [x m1| |n1|] eqn:Es; try done.
    - destruct (run step x.1 (k x.2) m1) as [y m2| |n2|] eqn:E; try done. injection Hr as ->.
      destruct (IH _ _ _ _ HJ E) as (d & cs1 & tr & m3 & o1 & Hr1 & Hs1 & Hp).
      exists (S d), cs1, ((o, x.2) :: tr), m3, o1. split; [|split; [done|]].
      + simpl. rewrite /mbind /M_bind Es Hr1. done.
      + intros s s1 [Ho Ha] Hc. inversion Hc as [|? ? ? s' ? ? Hpost Hc']; subst.
        destruct (Hp s' s1) as [? ?]; [by apply Ha|done|]. split; [done|]. eauto.
    - injection Hr as ->. exists 0%nat, cs, [], m, o. split; [done|]. split; [done|].
      intros s s1 [Hp _] Hc. inversion Hc; subst. done.
  Qed.

  Lemma run_env_every (b : Z) (I : cst → Prop) (P : op → Prop) c :
    (∀ cs o, I cs → P o → asks b (λ r, I r.1) (step cs o)) → every P c →
    ∀ cs m n, I cs → run step cs c m = Env n → n ≤ b.
  Proof.
    intros Hst. induction c as [|o k IH]; intros Hev cs m n Hi Hr; simpl in *; [done|]. destruct Hev as [Hp Hev].
    pose proof (Hst cs o Hi Hp m) as Hs. rewrite /mbind /M_bind in Hr. destruct (step cs o m) as [x m1| |n1|] eqn:Es; try done.
    - destruct (run step x.1 (k x.2) m1) as [y m2| |n2|] eqn:E; try done. injection Hr as <-. eapply IH; eauto.
    - by injection Hr as <-.
  Qed.

  Lemma allowed_mono (pre' : sst → op → Prop) s c :
    (∀ s o, pre s o → pre' s o) → allowed pre post s c → allowed pre' post s c.
  Proof.
    intros H. revert s. induction c as [|o k IH]; intros s Ha; simpl in *; [done|]. destruct Ha as [Hp Ha].
    split; [by apply H|]. intros a s' Hpost. apply IH. by apply Ha.
  Qed.
End run.
Lemma asks_env {A} b (Q : A → Prop) (c : M A) m n : asks b Q c → c m = Env n → n ≤ b.
Proof. intros H E. specialize (H m). by rewrite E in H. Qed.

(** ** The hashtables *)
Definition tlen (t : tab) : nat := match t with TabEs es => length es | _ => 0 end.
Lemma size_union_le (X Y : gset Z) : (size (X ∪ Y) ≤ size X + size Y)%nat.
Proof. rewrite size_union_alt. pose proof (subseteq_size (Y ∖ X) Y ltac:(set_solver)). lia. Qed.
Lemma size_list_le (l : list Z) : (size (list_to_set l : gset Z) ≤ length l)%nat.
Proof.
  induction l as [|x l IH]; simpl; [done|].
  pose proof (size_union_le {[x]} (list_to_set l)). rewrite size_singleton in H. lia.
Qed.
Lemma tpost_count size' om K s o a s' : trequest size' om K s o → tpost s o a s' →
  (size (ts_free s') + tlen (ts_tab s') ≤ size (ts_free s) + tlen (ts_tab s))%nat.
Proof.
  intros [Hpre _] Hp. destruct o as [n|p d h|f g arg h|p|f g arg h|h| | |arg| |]; simpl in Hp.
  - destruct Hp as [_ ->]. simpl. lia.
  - destruct Hp as (es & Ht & _ & ->), Hpre as (Hin & _). simpl. rewrite Ht /= app_length /=.
    rewrite size_difference; [|set_solver]. rewrite size_singleton.
    assert (1 ≤ size (ts_free s))%nat; [|lia].
    rewrite -(size_singleton (C:=gset Z) p). apply subseteq_size. set_solver.
  - destruct Hp as [(es1 & e & es2 & Ht & _ & _ & _ & ->)|(es & _ & _ & _ & ->)]; [|lia].
    simpl. rewrite Ht /= !app_length /=. pose proof (size_union_le (ts_free s) {[en_p e]}). rewrite size_singleton in H. lia.
  - destruct Hp as (es1 & d & h & es2 & Ht & _ & ->). simpl. rewrite Ht /= !app_length /=.
    pose proof (size_union_le (ts_free s) {[p]}). rewrite size_singleton in H. lia.
  - destruct Hp as [-> _]. lia.
  - destruct Hp as (es & xs & _ & _ & _ & _ & ->). lia.
  - destruct Hp as (es & _ & _ & ->). lia.
  - destruct Hp as (es & es' & _ & _ & _ & ->). lia.
  - destruct Hp as (es & es' & _ & _ & _ & ->). lia.
  - destruct Hp as (es & es' & Ht & _ & _ & ->). simpl. lia.
  - destruct Hp as [_ ->]. simpl. destruct (ts_tab s) as [|es|]; simpl.
    + pose proof (size_union_le (ts_free s) ∅). rewrite size_empty in H. lia.
    + pose proof (size_union_le (ts_free s) (list_to_set (en_p <$> es))).
      pose proof (size_list_le (en_p <$> es)). rewrite fmap_length in H0. lia.
    + pose proof (size_union_le (ts_free s) ∅). rewrite size_empty in H. lia.
Qed.

Section table.
  Variables (T : table) (inv : tb_st T → nat → Prop) (bound : Z → Z → Z).
  Hypothesis hist : ∀ om K t live m fuel c,
    table_start om K t live m → (size om ≤ fuel)%nat → allowed (tpre om K) tpost (tstate0 om live) c →
    safe (run (tstep T fuel t) None c m) (λ r m',
      table_end T inv om live r.1 r.2 m' ∧ unchanged_outside (HCTL :: t :: objs_cells om) m m').
  Notation asks0 s N := (asks (bound s (Z.of_nat N)) any).
  Hypothesis Hinit : ∀ s N n, 0 ≤ n ≤ 2 ^ 60 → n ≤ s → asks0 s N (tb_init T n).
  Hypothesis Hins : ∀ s N fuel st n p d h, inv st n → (S n ≤ N)%nat → asks0 s N (tb_insert T fuel st p d h).
  Hypothesis Hrem : ∀ s N fuel st n cmp arg h, inv st n → (n ≤ N)%nat → (∀ x y, asks0 s N (cmp x y)) →
    asks0 s N (tb_remove T fuel st cmp arg h).
  Hypothesis Hrex : ∀ s N fuel st n p, inv st n → (n ≤ N)%nat → asks0 s N (tb_remove_existing T fuel st p).
  Hypothesis Hsearch : ∀ b fuel st cmp arg h, (∀ x y, asks b any (cmp x y)) → asks b any (tb_search T fuel st cmp arg h).
  Hypothesis Hbucket : ∀ b st h, asks b any (tb_bucket T st h).
  Hypothesis Hforeach : ∀ b fuel st func, (∀ d, asks b any (func d)) → asks b any (tb_foreach T fuel st func).
  Hypothesis Hforeach_arg : ∀ b fuel st func arg, (∀ x d, asks b any (func x d)) → asks b any (tb_foreach_arg T fuel st func arg).
  Hypothesis Hdone : ∀ b st, asks b any (tb_done T st).

  Lemma table_asks : table_requests T bound.
  Proof using All.
    intros om K t live m fuel size' c n Hs Hf Ha Hr.
    destruct (run_env (tstep T fuel t) (trequest size' om K) tpost
      (λ s, (size (ts_free s) + tlen (ts_tab s) ≤ size om)%nat) c _ _ _ ltac:(intros s o a s' HJ Hp Hq; pose proof (tpost_count _ _ _ _ _ _ _ Hp Hq); cbv beta in *; lia) Hr)
      as (d & cs1 & tr & m1 & o & Hr1 & Hs1 & Hp).
    assert (Ha' : allowed (tpre om K) tpost (tstate0 om live) (trunc d c)).
    { apply trunc_allowed. eapply allowed_mono; [|exact Ha]. by intros s o' [? _]. }
    pose proof (hist om K t live m fuel _ Hs Hf Ha') as Hh. rewrite Hr1 in Hh. simpl in Hh.
    destruct Hh as [(s' & int & Hc & _ & _ & Hend) _].
    destruct (Hp _ _ Ha Hc) as [[Hpre Hq] HJ]. specialize (HJ ltac:(simpl; rewrite size_dom Nat.add_0_r; done)).
    eapply (asks_env _ any); [|exact Hs1].
    assert (Hcmp : ∀ f, (∀ a b, asks_nothing (f a b)) →
      ∀ x y, asks (bound size' (Z.of_nat (size om))) any (tape_cmp t (λ _, f) x y)).
    { intros f Hn x y. apply asks_cmp. intros _. apply Hn. }
    assert (Hv : ∀ d, asks (bound size' (Z.of_nat (size om))) any (visit t d)) by (intros; rewrite /visit; asks_all).
    assert (Hva : ∀ a d, asks (bound size' (Z.of_nat (size om))) any (visit_arg t a d)) by (intros; rewrite /visit_arg; asks_all).
    assert (Hvf : ∀ d, asks (bound size' (Z.of_nat (size om))) any (visit_free t d)) by (intros; rewrite /visit_free; asks_all).
    assert (Hw := asks_walk (bound size' (Z.of_nat (size om)))).
    destruct o as [k|p dd h|f g arg h|p|f g arg h|h| | |arg| |]; simpl.
    { apply (asks_bind _ any); [|intros; asks_all]. destruct Hpre. by apply Hinit. }
    all: destruct cs1 as [st|]; [|by apply asks_ub].
    - destruct Hpre as (Hin & (es & He) & _). rewrite He in Hend. destruct Hend as (st' & [= <-] & Hi & _).
      apply (asks_bind _ any); [|intros; asks_all]. eapply Hins; [exact Hi|]. rewrite He /= in HJ.
      assert (1 ≤ size (ts_free s'))%nat; [|lia]. rewrite -(size_singleton (C:=gset Z) p). apply subseteq_size. set_solver.
    - destruct Hpre as ((es & He & _) & _). rewrite He in Hend. destruct Hend as (st' & [= <-] & Hi & _).
      apply (asks_bind _ any); [|intros; asks_all]. eapply Hrem; [exact Hi| |by apply Hcmp]. rewrite He /= in HJ. lia.
    - destruct Hpre as (es & He & _). rewrite He in Hend. destruct Hend as (st' & [= <-] & Hi & _).
      apply (asks_bind _ any); [|intros; asks_all]. eapply Hrex; [exact Hi|]. rewrite He /= in HJ. lia.
    - apply (asks_bind _ any); [|intros; asks_all]. apply Hsearch. by apply Hcmp.
    - apply (asks_bind _ any); [apply Hbucket|intros]. asks_all.
    - asks_all.
    - apply (asks_bind _ any); [|intros; asks_all]. by apply Hforeach.
    - apply (asks_bind _ any); [|intros; asks_all]. by apply Hforeach_arg.
    - apply (asks_bind _ any); [|intros; asks_all]. by apply Hforeach.
    - apply (asks_bind _ any); [apply Hdone|intros; asks_all].
  Qed.
End table.

Lemma wrap_le x : 0 ≤ x → wrap x ≤ x.
Proof. intros. by apply Z.mod_le. Qed.
Lemma hashtable_requests : table_requests hashtable_table (λ size _, Z.max 128 (16 * size)).
Proof.
  apply (table_asks hashtable_table hashtable_inv _ hashtable_history); simpl.
  - intros s _ n H0 Hn. rewrite /hashtable_init. apply (asks_bind _ any); [|intros; asks_all; apply asks_memset].
    assert (Hbm : 0 ≤ (if decide (n < 16) then 16 else roundup_pow2 n) * 8 ≤ Z.max 128 (16 * s)).
    { case_decide; [lia|]. destruct (roundup_pow2_u64_ok n) as (k & Hk & He & Hle & Hmin); [lia|].
      change (roundup_pow2 n) with (roundup_pow2_u64 n). rewrite He.
      assert (2 ^ k = 2 * 2 ^ (k - 1)) as Hkk.
      { destruct (decide (k = 0)) as [->|]; [change (2 ^ 0) with 1 in *; lia|]. rewrite -Z.pow_succ_r; [f_equal|]; lia. }
      destruct (decide (n ≤ 2 ^ (k - 1))) as [Hc|]; [|lia]. destruct (decide (k = 0)) as [->|]; [change (2 ^ 0) with 1 in *; lia|].
      specialize (Hmin (k - 1) ltac:(lia) Hc). lia. }
    apply asks_malloc; [lia|]. etrans; [apply wrap_le|]; lia.
  - intros. rewrite /hashtable_insert. pose proof asks_insert_tail. asks_all.
  - intros. rewrite /hashtable_remove. asks_all. apply asks_bucket_remove; [done| |by apply asks_ret].
    intros p. pose proof asks_remove_existing. asks_all.
  - intros. rewrite /hashtable_remove_existing. pose proof asks_remove_existing. asks_all.
  - intros. rewrite /hashtable_search /hashtable_bucket. asks_all. by apply asks_bucket_search.
  - intros. rewrite /hashtable_bucket. asks_all.
  - intros. rewrite /hashtable_foreach. apply asks_buckets_foreach; [|done]. intros. asks_all.
  - intros. rewrite /hashtable_foreach_arg. apply asks_buckets_foreach; [|done]. intros. asks_all.
  - intros. rewrite /hashtable_done. asks_all.
Qed.

Lemma asks_hd_reinsert b fuel nb mask j : asks b any (hashdyn_reinsert fuel nb mask j).
Proof. pose proof asks_insert_tail_ne. pose proof asks_insert_first. revert j. induction fuel; intros; simpl; asks_all. Qed.
Lemma asks_hd_grow_loop b fuel n bk bm nb mask i : asks b any (hashdyn_grow_loop fuel n bk bm nb mask i).
Proof. pose proof asks_hd_reinsert. revert i. induction n; intros; simpl; asks_all. Qed.
Lemma asks_hd_shrink_loop b n bk nb bm i : asks b any (hashdyn_shrink_loop n bk nb bm i).
Proof. pose proof asks_concat. revert i. induction n; intros; simpl; asks_all. Qed.
Lemma asks_hd_resize b fuel t k : 0 ≤ b → (k < 64 → wrap (shl64 1 k * 8) ≤ b) → asks b any (hashdyn_resize fuel t k).
Proof.
  intros H0 Hb. pose proof asks_hd_grow_loop. pose proof asks_hd_shrink_loop. rewrite /hashdyn_resize.
  case_decide; [apply asks_ub|]. cbv zeta. apply (asks_bind _ any); [apply asks_malloc; [done|apply Hb; lia]|intros; asks_all].
Qed.
Lemma wrap_shift_le k : 0 ≤ k → wrap (shl64 1 k * 8) ≤ 8 * 2 ^ k.
Proof.
  intros Hk. pose proof (Z.pow_pos_nonneg 2 k ltac:(lia) Hk).
  assert (0 ≤ shl64 1 k ≤ 2 ^ k).
  { rewrite /shl64 Z.shiftl_1_l. split; [by apply Z.mod_pos_bound|]. apply Z.mod_le; lia. }
  etrans; [apply wrap_le|]; lia.
Qed.
Lemma hashdyn_requests : table_requests hashdyn_table (λ _ objects, Z.max 128 (32 * objects)).
Proof.
  assert (Hsh : ∀ N fuel st n, hashdyn_inv st n → (n ≤ N)%nat →
    asks (Z.max 128 (32 * Z.of_nat N)) any (hashdyn_shrink_step fuel (hd_set_count st (sub64 (hd_count st) 1)))).
  { intros N fuel st n ((k & Hk & Hm & Hb) & _ & _ & _ & Hl & Hc) Hn. rewrite /hashdyn_shrink_step /=. case_decide as Hd; [|asks_all].
    rewrite Hb /HASHDYN_BIT in Hd |- *. destruct Hd as [_ Hk4].
    apply asks_hd_resize; [lia|]. intros _. etrans; [apply wrap_shift_le; lia|].
    assert (2 ^ k = 2 * 2 ^ (k - 1)) as H2. { rewrite -Z.pow_succ_r; [f_equal|]; lia. }
    destruct Hl as [Hl|Hl]; [|lia].
    assert (2 ^ 4 < 2 ^ k) by (apply Z.pow_lt_mono_r; lia). change (2 ^ 4) with 16 in *. lia. }
  apply (table_asks hashdyn_table hashdyn_inv _ hashdyn_history); simpl.
  - intros _ N _ _ _. rewrite /hashdyn_init. apply (asks_bind _ any); [|intros; asks_all].
    apply asks_calloc_words; [lia|]. change (8 * shl64 1 HASHDYN_BIT) with 128. lia.
  - intros _ N fuel st n p d h ((k & Hk & Hm & Hb) & _ & _ & H2 & Hl & Hc) Hn. rewrite /hashdyn_insert.
    pose proof asks_insert_tail. asks_all. rewrite /hashdyn_grow_step /=. case_decide as Hd; [|asks_all].
    apply asks_hd_resize; [lia|]. intros _. etrans; [apply wrap_shift_le; lia|].
    rewrite Hb Z.pow_add_r; [|lia..]. rewrite Hm Hc /wrap in Hd. rewrite Hm in H2.
    assert (2 ^ k = 2 * 2 ^ (k - 1)) as Hkk. { rewrite -Z.pow_succ_r; [f_equal|]; lia. }
    assert (2 ^ k ≤ 2 ^ 60) by (apply Z.pow_le_mono_r; lia).
    rewrite Z.mod_small in Hd; [|lia]. rewrite Hkk Z.mul_comm Z.div_mul in Hd; [|lia]. lia.
  - intros _ N fuel st n cmp arg h Hi Hn Hcmp. rewrite /hashdyn_remove. asks_all. apply asks_bucket_remove; [done| |by apply asks_ret].
    intros p. pose proof asks_remove_existing. specialize (Hsh N fuel st n Hi Hn). asks_all.
  - intros _ N fuel st n p Hi Hn. rewrite /hashdyn_remove_existing. pose proof asks_remove_existing. specialize (Hsh N fuel st n Hi Hn). asks_all.
  - intros. rewrite /hashdyn_search /hashdyn_bucket. asks_all. by apply asks_bucket_search.
  - intros. rewrite /hashdyn_bucket. asks_all.
  - intros. rewrite /hashdyn_foreach. apply asks_buckets_foreach; [|done]. intros. asks_all.
  - intros. rewrite /hashdyn_foreach_arg. apply asks_buckets_foreach; [|done]. intros. asks_all.
  - intros. rewrite /hashdyn_done. asks_all.
Qed.

Lemma asks_hl_get b t i : asks b any (hl_get t i).
Proof. rewrite /hl_get. asks_all. Qed.
Lemma asks_hl_set b t i p : asks b any (hl_set t i p).
Proof. rewrite /hl_set. asks_all. Qed.
Lemma asks_hl_set_bit b t i : asks b any (hl_set_bit t i).
Proof. rewrite /hl_set_bit. asks_all. Qed.
Lemma asks_ilog2 b x : asks b any (ilog2 x).
Proof. rewrite /ilog2. asks_all. Qed.
Lemma asks_hl_pos b t p : asks b any (hashlin_pos t p).
Proof. pose proof asks_ilog2. pose proof asks_hl_get. rewrite /hashlin_pos. asks_all. Qed.
Lemma asks_hl_ref b t h : asks b any (hashlin_bucket_ref t h).
Proof. apply asks_hl_pos. Qed.
Lemma asks_hl_flush b fuel s0 s1 mask j : asks b any (hashlin_flush fuel s0 s1 mask j).
Proof. pose proof asks_insert_tail_ne. pose proof asks_insert_first. revert j. induction fuel; intros; simpl; asks_all. Qed.
Lemma asks_hl_grow_loop b fuel n t x : asks b any (hashlin_grow_loop fuel n t x).
Proof. pose proof asks_hl_pos. pose proof asks_hl_flush. revert t. induction n; intros; simpl; asks_all. Qed.
Lemma asks_hl_shrink_loop b n t x : asks b any (hashlin_shrink_loop n t x).
Proof.
  pose proof asks_hl_pos. pose proof asks_concat. pose proof asks_hl_get. pose proof asks_hl_set_bit.
  revert t. induction n; intros; simpl; asks_all.
Qed.
Lemma asks_hl_done_loop b n t i : asks b any (hashlin_done_loop n t i).
Proof. pose proof asks_hl_get. revert i. induction n; intros; simpl; asks_all. Qed.
Lemma asks_hl_shrink b t : asks b any (hashlin_shrink_step t).
Proof. rewrite /hashlin_shrink_step. cbv zeta. case_decide; [apply asks_hl_shrink_loop|asks_all]. Qed.

Lemma hashlin_requests : table_requests hashlin_table (λ _ objects, Z.max 512 (16 * objects)).
Proof.
  apply (table_asks hashlin_table hashlin_inv _ hashlin_history); simpl.
  - intros _ N _ _ _. rewrite /hashlin_init. apply (asks_bind _ any); [|intros; asks_all].
    apply asks_calloc_words; [lia|]. change (8 * shl64 1 HASHLIN_BIT) with 512. lia.
  - intros _ N fuel st n p d h (Hc & (k & Hk & Hm & Hb) & _ & _ & Hst) Hn. rewrite /hashlin_insert.
    pose proof asks_insert_tail. pose proof asks_hl_ref. asks_all.
    rewrite /hashlin_grow_step. apply (asks_bind _ any); [|intros; case_decide; [apply asks_hl_grow_loop|asks_all]].
    simpl. rewrite Hc Hm. case_decide as Hd; [|asks_all]. destruct Hd as [_ Hd].
    apply (asks_bind _ any); [|intros; asks_all]. case_decide; [|asks_all].
    apply (asks_bind _ any); [|intros; pose proof asks_hl_set; pose proof asks_hl_set_bit; asks_all].
    assert (2 ^ k = 2 * 2 ^ (k - 1)) as Hkk. { rewrite -Z.pow_succ_r; [f_equal|]; lia. }
    pose proof (Z.pow_pos_nonneg 2 (k - 1) ltac:(lia) ltac:(lia)).
    apply asks_malloc; [lia|]. etrans; [apply wrap_le; lia|].
    rewrite Hkk Z.mul_comm Z.div_mul in Hd; [|lia]. pose proof (wrap_le (Z.of_nat n + 1) ltac:(lia)). lia.
  - intros _ N fuel st n cmp arg h _ _ Hcmp. rewrite /hashlin_remove. pose proof asks_hl_ref. asks_all.
    apply asks_bucket_remove; [done| |by apply asks_ret].
    intros p. pose proof asks_remove_existing. pose proof asks_hl_shrink. asks_all.
  - intros _ N fuel st n p _ _. rewrite /hashlin_remove_existing.
    pose proof asks_hl_ref. pose proof asks_remove_existing. pose proof asks_hl_shrink. asks_all.
  - intros. rewrite /hashlin_search /hashlin_bucket. pose proof asks_hl_ref. asks_all. by apply asks_bucket_search.
  - intros. rewrite /hashlin_bucket. pose proof asks_hl_ref. asks_all.
  - intros. rewrite /hashlin_foreach. apply asks_buckets_foreach; [|done]. intros. apply asks_hl_pos.
  - intros. rewrite /hashlin_foreach_arg. apply asks_buckets_foreach; [|done]. intros. apply asks_hl_pos.
  - intros. rewrite /hashlin_done. pose proof asks_hl_get. pose proof asks_hl_done_loop. asks_all.
Qed.

(** ** The arrays *)
Section arrays.
  Variables (T : arrays) (inv : ay_st T → Z → Z → Prop) (bound : Z → Z → Z).
  Hypothesis hist : ∀ `{!memG}, memG_env → array_proof T inv.
  Hypothesis Hinit : ∀ sz by' k, 1 ≤ k → k ≤ by' → asks (bound sz by') any (ay_init T k).
  Hypothesis Hgrow : ∀ sz by' st n k c, inv st n k → 0 ≤ k ≤ by' → 0 ≤ c ≤ sz → asks (bound sz by') any (ay_grow T st c).
  Hypothesis Hins : ∀ sz by' st n k v, inv st n k → 0 ≤ n < sz → asks (bound sz by') any (ay_insert T st v).
  Hypothesis Href : ∀ b st i, asks b any (ay_ref T st i).
  Hypothesis Hset : ∀ b st i v, asks b any (ay_set T st i v).
  Hypothesis Hget : ∀ b st i, asks b any (ay_get T st i).
  Hypothesis Hdone : ∀ b st, asks b any (ay_done T st).

  Lemma apost_bytes sz by' s o a s' : arequest T sz by' s o → apost T s o a s' →
    (∀ k es, as_arr s = Some (k, es) → Z.of_nat k ≤ by') → ∀ k es, as_arr s' = Some (k, es) → Z.of_nat k ≤ by'.
  Proof.
    intros [Hpre Hb] Hp HJ k es He. destruct o; simpl in Hp, Hpre, Hb.
    - destruct Hp as (_ & own & -> & _). simpl in He. injection He as <- _. destruct Hpre. destruct (ay_words T); lia.
    - destruct Hp as (_ & k' & es' & news & own & Ha & -> & _). simpl in He. injection He as <- _. by eapply HJ.
    - destruct Hp as (k' & es' & Ha & _ & ->). by eapply HJ.
    - destruct Hp as (_ & ->). by eapply HJ.
    - destruct Hp as (k' & es' & e & Ha & _ & _ & ->). by eapply HJ.
    - destruct Hp as (es' & e & Ha & _ & _ & ->). simpl in He. injection He as <- _. by eapply HJ.
    - destruct Hp as (k' & es' & p & v & Ha & _ & _ & ->). by eapply HJ.
    - destruct Hp as (_ & es' & p & own & Ha & -> & _). simpl in He. injection He as <- _. by eapply HJ.
    - destruct Hp as (k' & es' & e & j & v & Ha & _ & _ & _ & _ & ->). by eapply HJ.
    - destruct Hp as (k' & es' & i & e & j & Ha & _ & _ & _ & _ & ->). simpl in He. injection He as <- _. by eapply HJ.
    - destruct Hp as (_ & ->). done.
  Qed.

  Lemma array_asks : array_requests T bound.
  Proof using All.
    intros live m sz by' c n Hl Ha Hr.
    destruct (run_env (astep T) (arequest T sz by') (apost T) (λ s, ∀ k es, as_arr s = Some (k, es) → Z.of_nat k ≤ by')
      c _ _ _ ltac:(intros s o a s' HJ Hp Hq; cbv beta in *; by eapply apost_bytes) Hr) as (d & cs1 & tr & m1 & o & Hr1 & Hs1 & Hp).
    assert (Ha' : allowed (apre T) (apost T) (astate0 live) (trunc d c)).
    { apply trunc_allowed. eapply allowed_mono; [|exact Ha]. by intros s o' [? _]. }
    pose proof (array_history T inv live m _ (@hist) Hl Ha') as Hh. rewrite Hr1 in Hh. simpl in Hh.
    destruct Hh as [(s' & Hc & _ & _ & Hend) _].
    destruct (Hp _ _ Ha Hc) as [[Hpre Hq] HJ]. specialize (HJ ltac:(done)).
    eapply (asks_env _ any); [|exact Hs1].
    destruct o as [k|k| | |i|i v|i|v|p|p v|]; simpl.
    { apply (asks_bind _ any); [|intros; asks_all]. destruct Hpre. apply Hinit; [lia|done]. }
    all: destruct cs1 as [st|]; [|by apply asks_ub].
    - destruct Hpre as [[[k' es] He] Hk]. rewrite He in Hend. destruct Hend as ((st' & [= <-] & Hi) & _).
      apply (asks_bind _ any); [|intros; asks_all]. eapply Hgrow; [exact Hi| |lia]. specialize (HJ _ _ He). lia.
    - asks_all.
    - asks_all.
    - asks_all.
    - apply (asks_bind _ any); [apply Hset|intros; asks_all].
    - asks_all.
    - destruct Hpre as [_ [[k' es] He]]. rewrite He in Hend. destruct Hend as ((st' & [= <-] & Hi) & _).
      apply (asks_bind _ any); [|intros; asks_all]. eapply Hins; [exact Hi|]. specialize (Hq _ _ He). lia.
    - asks_all.
    - asks_all.
    - apply (asks_bind _ any); [apply Hdone|intros; asks_all].
  Qed.
End arrays.

Lemma asks_seg_get b l i : asks b any (seg_get l i).
Proof. rewrite /seg_get. asks_all. Qed.
Lemma asks_seg_set b l i p : asks b any (seg_set l i p).
Proof. rewrite /seg_set. asks_all. Qed.
Lemma asks_size_shift b i : asks b any (size_shift i).
Proof. rewrite /size_shift. asks_all. Qed.
Lemma asks_ptrdiff_shift b i : asks b any (ptrdiff_shift i).
Proof. rewrite /ptrdiff_shift. asks_all. Qed.
Lemma asks_to_ptrdiff b i : asks b any (to_ptrdiff i).
Proof. rewrite /to_ptrdiff. asks_all. Qed.
Ltac asks_seg :=
  pose proof asks_seg_get; pose proof asks_seg_set; pose proof asks_size_shift; pose proof asks_ptrdiff_shift;
  pose proof asks_to_ptrdiff; pose proof asks_ilog2.
Lemma size_shift_6 b : asks b (λ v, v = 64) (size_shift 6).
Proof. done. Qed.
Lemma asks_array_init b : 512 ≤ b → asks b any array_init.
Proof.
  intros. rewrite /array_init. apply (asks_bind _ (λ v, v = 64)); [apply size_shift_6|]. intros ? ->.
  apply (asks_bind _ any); [apply asks_calloc_words; lia|intros; asks_all].
Qed.
Lemma asks_array_grow b t c : 0 ≤ b → 8 * c ≤ b → asks b any (array_grow t c).
Proof.
  intros H0 Hc. rewrite /array_grow. case_decide; [asks_all|].
  generalize (Array (ar_bucket t) (ar_bucket_max t) c (ar_bucket_bit t)). generalize 64%nat. asks_seg.
  intros n. induction n as [|n IH]; intros t'; simpl; case_decide; try asks_all. apply asks_calloc_words; lia.
Qed.
Lemma asks_array_ref b t i : asks b any (array_ref t i).
Proof. asks_seg. rewrite /array_ref. asks_all. Qed.
Lemma asks_array_set b t i v : asks b any (array_set t i v).
Proof. pose proof asks_array_ref. rewrite /array_set. asks_all. Qed.
Lemma asks_array_get b t i : asks b any (array_get t i).
Proof. pose proof asks_array_ref. rewrite /array_get. asks_all. Qed.
Lemma asks_array_done b t : asks b any (array_done t).
Proof.
  asks_seg. rewrite /array_done. asks_all. generalize (Z.to_nat (ar_bucket_bit t - ARRAY_BIT)).
  intros n. generalize ARRAY_BIT. induction n; intros; simpl; asks_all.
Qed.
Lemma add64_le x y : 0 ≤ x + y → add64 x y ≤ x + y.
Proof. intros. rewrite /add64. by apply Z.mod_le. Qed.
Lemma add64_pos x y : 0 ≤ add64 x y.
Proof. rewrite /add64. by apply Z.mod_pos_bound. Qed.

Lemma array_requests_ok : array_requests array_a (λ size _, Z.max 512 (8 * size)).
Proof.
  apply (array_asks array_a array_inv); simpl.
  - intros. by apply array_ok.
  - intros. apply asks_array_init. lia.
  - intros. apply asks_array_grow; lia.
  - intros sz by' st n k v Hi Hn. destruct Hi as [Hc _]. rewrite /array_insert Hc.
    pose proof (add64_le n 1 ltac:(lia)). pose proof asks_array_set.
    apply (asks_bind _ any); [apply asks_array_grow; lia|intros; asks_all].
  - intros. apply asks_array_ref.
  - intros. apply asks_array_set.
  - intros. apply asks_array_get.
  - intros. apply asks_array_done.
Qed.

Lemma arrayof_requests_ok : array_requests arrayof_a (λ size bytes, Z.max (64 * bytes) (bytes * size)).
Proof.
  apply (array_asks arrayof_a arrayof_inv); simpl.
  - intros. by apply arrayof_ok.
  - intros. rewrite /arrayof_init. apply (asks_bind _ (λ v, v = 64)); [apply size_shift_6|]. intros ? ->.
    apply (asks_bind _ any); [apply asks_calloc_bytes; lia|intros; asks_all].
  - intros sz by' st n k c Hi Hk Hc. destruct Hi as (_ & He & _). rewrite /arrayof_grow. case_decide; [asks_all|].
    assert (Hes : ao_element_size (ArrayOf (ao_bucket st) (ao_element_size st) (ao_bucket_max st) c (ao_bucket_bit st)) = k) by done.
    revert Hes. generalize (ArrayOf (ao_bucket st) (ao_element_size st) (ao_bucket_max st) c (ao_bucket_bit st)).
    generalize 64%nat. asks_seg.
    intros f. induction f as [|f IH]; intros t' Hes; simpl; case_decide; try by asks_all.
    apply (asks_bind _ any).
    { assert (0 ≤ by' * sz) by (apply Z.mul_nonneg_nonneg; lia).
      assert (ao_bucket_max t' * k ≤ by' * sz).
      { etrans; [apply (Z.mul_le_mono_nonneg_r _ c); lia|]. rewrite Z.mul_comm. apply Z.mul_le_mono_nonneg; lia. }
      rewrite Hes. apply asks_calloc_bytes; lia. }
    intros. asks_all. done.
  - intros. apply asks_ub.
  - intros. rewrite /arrayof_ref. asks_seg. asks_all.
  - intros. apply asks_ub.
  - intros. apply asks_ub.
  - intros b t. asks_seg. rewrite /arrayof_done. asks_all. generalize (Z.to_nat (ao_bucket_bit t - ARRAYOF_BIT)).
    intros n. generalize ARRAYOF_BIT. induction n; intros; simpl; asks_all.
Qed.

Lemma block_max_le c sz : 0 ≤ c → c ≤ sz → sub64 (add64 c 4096) 1 / 4096 ≤ (sz + 4095) / 4096.
Proof.
  intros H0 Hc. apply Z.div_le_mono; [lia|]. rewrite /sub64 /add64 Zminus_mod_idemp_l.
  etrans; [apply Z.mod_le; lia|lia].
Qed.
Lemma asks_blocks_free b n t i : asks b any (blocks_free n t i).
Proof. pose proof asks_array_get. revert i. induction n; intros; simpl; asks_all. Qed.
Lemma asks_arrayblk_ref b t i : asks b any (arrayblk_ref t i).
Proof. pose proof asks_array_get. rewrite /arrayblk_ref. asks_all. Qed.
Lemma asks_arrayblk_set b t i v : asks b any (arrayblk_set t i v).
Proof. pose proof asks_arrayblk_ref. rewrite /arrayblk_set. asks_all. Qed.
Lemma asks_arrayblk_grow t c sz : 0 ≤ c → c ≤ sz →
  asks (Z.max 32768 (8 * ((sz + 4095) / 4096))) any (arrayblk_grow t c).
Proof.
  intros H0 Hc. pose proof (block_max_le c sz H0 Hc). rewrite /arrayblk_grow. case_decide; [asks_all|]. cbv zeta.
  change ARRAYBLK_SIZE with 4096. case_decide; [|asks_all].
  apply (asks_bind _ any); [apply asks_array_grow; lia|]. intros blk _. apply (asks_bind _ any); [|intros; asks_all].
  generalize (Z.to_nat (sub64 (add64 c 4096) 1 / 4096 - array_size (ab_block t))).
  intros n. generalize (array_size (ab_block t)). pose proof asks_array_set. induction n; intros; simpl; asks_all.
  apply asks_calloc_words; [lia|]. change (8 * ARRAYBLK_SIZE) with 32768. lia.
Qed.
Lemma arrayblk_requests_ok : array_requests arrayblk_a (λ size _, Z.max 32768 (8 * ((size + 4095) / 4096))).
Proof.
  apply (array_asks arrayblk_a arrayblk_inv); simpl.
  - intros. by apply arrayblk_ok.
  - intros. rewrite /arrayblk_init. apply (asks_bind _ any); [apply asks_array_init; lia|intros; asks_all].
  - intros. apply asks_arrayblk_grow; lia.
  - intros sz by' st n k v Hi Hn. destruct Hi as [Hc _]. rewrite /arrayblk_insert Hc.
    pose proof (add64_le n 1 ltac:(lia)). pose proof (add64_pos n 1). pose proof asks_arrayblk_set.
    apply (asks_bind _ any); [apply asks_arrayblk_grow; lia|intros; asks_all].
  - intros. apply asks_arrayblk_ref.
  - intros. apply asks_arrayblk_set.
  - intros. rewrite /arrayblk_get. pose proof asks_arrayblk_ref. asks_all.
  - intros. rewrite /arrayblk_done. pose proof asks_blocks_free. pose proof asks_array_done. asks_all.
Qed.

Lemma arrayblkof_requests_ok :
  array_requests arrayblkof_a (λ size bytes, Z.max (Z.max 512 (4096 * bytes)) (8 * ((size + 4095) / 4096))).
Proof.
  apply (array_asks arrayblkof_a arrayblkof_inv); simpl.
  - intros. by apply arrayblkof_ok.
  - intros. rewrite /arrayblkof_init. apply (asks_bind _ any); [apply asks_array_init; lia|intros; asks_all].
  - intros sz by' t n k c Hi Hk Hc. destruct Hi as (_ & He & _). pose proof (block_max_le c sz ltac:(lia) ltac:(lia)).
    rewrite /arrayblkof_grow. case_decide; [asks_all|]. cbv zeta.
    change ARRAYBLKOF_SIZE with 4096. case_decide; [|asks_all].
    apply (asks_bind _ any); [apply asks_array_grow; lia|]. intros blk _. apply (asks_bind _ any); [|intros; asks_all].
    rewrite He. generalize (Z.to_nat (sub64 (add64 c 4096) 1 / 4096 - array_size (abo_block t))).
    intros f. generalize (array_size (abo_block t)). pose proof asks_array_set. induction f; intros; simpl; asks_all.
    apply asks_calloc_bytes; [lia|]. change ARRAYBLKOF_SIZE with 4096. lia.
  - intros. apply asks_ub.
  - intros. rewrite /arrayblkof_ref. pose proof asks_array_get. asks_all.
  - intros. apply asks_ub.
  - intros. apply asks_ub.
  - intros. rewrite /arrayblkof_done. pose proof asks_blocks_free. pose proof asks_array_done. asks_all.
Qed.

(** ** The allocator and the trie *)
Definition al_ok (b : Z) (t : allocator) : Prop :=
  Z.max 4032 (add64 (add64 8 (al_align_size t)) (al_block_size t)) ≤ b.
Lemma al_ok_init b bs al : 0 ≤ bs → 8 + real_align al + real_size bs al < 2 ^ 64 →
  segment_size (real_size bs al) (real_align al) ≤ b → al_ok b (allocator_init bs al).
Proof.
  intros H0 Ho Hb. rewrite /al_ok /allocator_init /=.
  assert (Ha : (if decide (al < 8) then 8 else al) = real_align al) by (rewrite /real_align; case_decide; lia).
  rewrite Ha. clear Ha. assert (8 ≤ real_align al) by (rewrite /real_align; lia).
  pose proof (Z.div_mod bs (real_align al) ltac:(lia)). pose proof (Z.mod_pos_bound bs (real_align al) ltac:(lia)).
  assert (Hs : (if decide (bs mod real_align al ≠ 0) then add64 bs (sub64 (real_align al) (bs mod real_align al)) else bs) = real_size bs al).
  { rewrite /real_size in Ho |- *. case_decide as Hd.
    - assert (He : (bs + real_align al - 1) / real_align al = bs / real_align al + 1).
      { symmetry. apply (Z.div_unique _ _ _ (bs mod real_align al - 1)); [left; lia|]. rewrite Z.mul_add_distr_l. lia. }
      rewrite He in Ho |- *. rewrite /add64 /sub64 (Z.mod_small (real_align al - _)); [|nia].
      rewrite Z.mod_small; nia.
    - assert (He : (bs + real_align al - 1) / real_align al = bs / real_align al).
      { symmetry. apply (Z.div_unique _ _ _ (real_align al - 1)); lia. }
      rewrite He. lia. }
  rewrite Hs. assert (0 ≤ real_size bs al).
  { rewrite /real_size. apply Z.mul_nonneg_nonneg; [lia|]. apply Z.div_pos; lia. }
  rewrite /segment_size in Hb. rewrite /add64 (Z.mod_small (8 + _)); [|lia]. rewrite Z.mod_small; lia.
Qed.
Lemma asks_carve b fuel bs d s f : asks b any (allocator_carve fuel bs d s f).
Proof. revert d s f. induction fuel; intros; simpl; asks_all. Qed.
Lemma asks_alloc b t : al_ok b t → asks b (λ r, al_ok b r.2) (allocator_alloc t).
Proof.
  intros Ht. rewrite /allocator_alloc. apply (asks_bind _ (al_ok b)).
  - case_decide; [|by apply asks_ret]. rewrite /allocator_refill. cbv zeta. rewrite /al_ok in Ht.
    apply (asks_bind _ any); [|intros; pose proof asks_carve; asks_all; exact Ht].
    change ALLOCATOR_BLOCK_SIZE with 4032. apply asks_malloc; [lia|]. case_decide; lia.
  - intros t' Ht'. cbv zeta. asks_all. exact Ht'.
Qed.
Lemma asks_al_free b t p : al_ok b t → asks b (al_ok b) (allocator_free t p).
Proof. intros Ht. rewrite /allocator_free. asks_all. exact Ht. Qed.
Lemma asks_al_done b t : al_ok b t → asks b (al_ok b) (allocator_done t).
Proof.
  intros Ht m. rewrite /allocator_done /allocator_reset. generalize (size m). intros n. revert m.
  change (asks b (al_ok b) (allocator_reset_loop n (al_used_segment t);;
    mret (Allocator 0 0 (al_block_size t) (al_align_size t) 0))).
  asks_all; [|exact Ht]. generalize (al_used_segment t). induction n; intros; simpl; asks_all.
Qed.
Definition all_ok (b : Z) (cs : option allocator) : Prop := match cs with Some t => al_ok b t | None => True end.
Lemma allocator_requests b c m n : every (prequest b) c → run pstep None c m = Env n → n ≤ b.
Proof.
  intros He. apply (run_env_every pstep b (all_ok b) (prequest b)); [|done|done].
  intros cs o Hcs Ho. destruct o; simpl; [|destruct cs as [t|]; simpl in Hcs; [|apply asks_ub]..].
  - apply asks_ret. simpl. destruct Ho as (? & ? & ?). by apply al_ok_init.
  - eapply asks_bind; [by apply asks_alloc|]. intros r Hr. by apply asks_ret.
  - eapply asks_bind; [by apply asks_al_free|]. intros r Hr. by apply asks_ret.
  - by apply asks_ret.
  - asks_all. exact Hcs.
  - asks_all. exact Hcs.
  - eapply asks_bind; [by apply asks_al_done|]. intros r Hr. by apply asks_ret.
Qed.

Lemma asks_clear b a n : asks b any (clear_loop a n).
Proof. revert a. induction n; intros; simpl; asks_all. Qed.
Lemma asks_digit b k s : asks b any (trie_digit k s).
Proof. rewrite /trie_digit /shr_key. asks_all. Qed.
Lemma asks_expand b fuel al nc s lp node ins key : al_ok b al →
  asks b (λ r, al_ok b r.1) (trie_expand fuel al nc s lp node ins key).
Proof.
  pose proof asks_clear. pose proof asks_digit. pose proof asks_insert_first.
  revert al nc s lp. induction fuel as [|fuel IH]; intros al nc s lp Hal; simpl;
    (eapply asks_bind; [by apply asks_alloc|]; intros r Hr; simpl; asks_all; try exact Hr). by apply IH.
Qed.
Lemma asks_bucket_insert b fuel al nc s lp ins key : al_ok b al →
  asks b (λ r, al_ok b r.1) (trie_bucket_insert fuel al nc s lp ins key).
Proof.
  intros Hal. pose proof asks_digit. pose proof asks_insert_first. pose proof asks_insert_tail_ne.
  revert nc s lp. induction fuel as [|fuel IH]; intros nc s lp; cbn [trie_bucket_insert];
    asks_all; try exact Hal; try apply IH; by apply asks_expand.
Qed.
Lemma asks_let_ptr b t k : asks b any (trie_let_ptr t k).
Proof. rewrite /trie_let_ptr /shr_key. asks_all. Qed.
Lemma asks_scan b n tree i c l : asks b any (trie_scan n tree i c l).
Proof. revert i c l. induction n; intros; simpl; asks_all. Qed.
Lemma asks_reduce b path al nc : al_ok b al → asks b (λ r, al_ok b r.1) (trie_reduce path al nc).
Proof.
  pose proof asks_scan. revert al nc. induction path as [|lp path IH]; intros al nc Hal; simpl; [by apply asks_ret|].
  apply (asks_bind _ any); [asks_all|intros ptr _]. apply (asks_bind _ any); [asks_all|intros r _].
  destruct r as [[c l]|]; [|by apply asks_ret].
  do 3 (apply (asks_bind _ any); [asks_all|intros ? _]).
  eapply asks_bind; [by apply asks_al_free|]. intros al' Hal'. by apply IH.
Qed.
Lemma asks_tri_remove b fuel al nc s lp rm key path : al_ok b al →
  asks b (λ r, al_ok b r.2.1) (trie_bucket_remove_existing fuel al nc s lp rm key path).
Proof.
  intros Hal. pose proof asks_digit. pose proof asks_remove_existing.
  revert nc s lp path. induction fuel as [|fuel IH]; intros nc s lp path; simpl;
    (apply (asks_bind _ any); [asks_all|intros ptr _]; case_decide; [by apply asks_ret|]; case_decide;
     [do 2 (apply (asks_bind _ any); [asks_all|intros ? _]); first [apply asks_fuel|apply IH]|];
     apply (asks_bind _ any); [asks_all|intros rm' _]; case_decide; [by apply asks_ret|];
     do 2 (apply (asks_bind _ any); [asks_all|intros ? _]);
     eapply asks_bind; [|intros r Hr; apply asks_ret; exact Hr];
     case_decide; [by apply asks_ret|by apply asks_reduce]).
Qed.
Lemma asks_tri_bucket_loop b fuel s ptr k : asks b any (trie_bucket_loop fuel s ptr k).
Proof.
  revert s ptr. induction fuel as [|fuel IH]; intros s ptr; cbn [trie_bucket_loop];
    (case_decide; [by apply asks_ret|]; case_decide; [asks_all|];
     apply (asks_bind _ any); [apply asks_digit|intros ? _]; apply (asks_bind _ any); [apply asks_load|intros ? _]);
    [apply asks_fuel|apply IH].
Qed.
Lemma asks_tri_bucket b fuel t k : asks b any (trie_bucket fuel t k).
Proof.
  apply (asks_bind _ any); [apply asks_let_ptr|intros ? _]. apply (asks_bind _ any); [apply asks_load|intros ? _].
  apply asks_tri_bucket_loop.
Qed.
Lemma asks_trie_insert b fuel t al node d k : al_ok b al → asks b (λ r, al_ok b r.2) (trie_insert fuel t al node d k).
Proof.
  intros Hal. pose proof asks_let_ptr. rewrite /trie_insert. do 3 (apply (asks_bind _ any); [asks_all|intros ? _]).
  eapply asks_bind; [by apply asks_bucket_insert|]. intros r Hr. by apply asks_ret.
Qed.
Lemma asks_trie_remove b fuel t al k : al_ok b al → asks b (λ r, al_ok b r.1.2) (trie_remove fuel t al k).
Proof.
  intros Hal. pose proof asks_let_ptr. rewrite /trie_remove. apply (asks_bind _ any); [asks_all|intros ? _].
  eapply asks_bind; [by apply asks_tri_remove|]. intros r Hr. case_decide; [by apply asks_ret|]. asks_all. exact Hr.
Qed.
Lemma asks_trie_remove_existing b fuel t al p : al_ok b al → asks b (λ r, al_ok b r.1.2) (trie_remove_existing fuel t al p).
Proof.
  intros Hal. pose proof asks_let_ptr. rewrite /trie_remove_existing. do 2 (apply (asks_bind _ any); [asks_all|intros ? _]).
  eapply asks_bind; [by apply asks_tri_remove|]. intros r Hr. asks_all. exact Hr.
Qed.
Definition xall_ok (b : Z) (cs : option (trie * allocator)) : Prop := match cs with Some t => al_ok b t.2 | None => True end.
Lemma trie_requests b fuel tb c m n : every (xrequest b) c → run (xstep fuel tb) None c m = Env n → n ≤ b.
Proof.
  intros He. apply (run_env_every (xstep fuel tb) b (xall_ok b) (xrequest b)); [|done|done].
  intros cs o Hcs Ho.
  destruct o as [bs al|[]| | |p j v|p| |]; cbn [xstep]; [|destruct cs as [[t al]|]; simpl in Hcs; [|apply asks_ub]..].
  - apply (asks_bind _ any).
    { apply (asks_bind _ any); [apply asks_clear|intros; by apply asks_ret]. }
    intros t _. apply asks_ret. simpl. destruct Ho as (? & ? & ?). by apply al_ok_init.
  - eapply asks_bind; [by apply asks_trie_insert|]. intros r Hr. by apply asks_ret.
  - eapply asks_bind; [by apply asks_trie_remove|]. intros r Hr. by apply asks_ret.
  - eapply asks_bind; [by apply asks_trie_remove_existing|]. intros r Hr. by apply asks_ret.
  - apply (asks_bind _ any); [|intros; by apply asks_ret].
    apply (asks_bind _ any); [apply asks_tri_bucket|intros; asks_all].
  - apply (asks_bind _ any); [apply asks_tri_bucket|intros ? _].
    apply (asks_bind _ any); [apply asks_walk|intros; by apply asks_ret].
  - by apply asks_ret.
  - by apply asks_ret.
  - eapply asks_bind; [by apply asks_alloc|]. intros r Hr. by apply asks_ret.
  - asks_all. exact Hcs.
  - eapply asks_bind; [by apply asks_al_free|]. intros r Hr. by apply asks_ret.
  - by apply asks_ret.
  - eapply asks_bind; [by apply asks_al_done|]. intros r Hr. by apply asks_ret.
Qed.
