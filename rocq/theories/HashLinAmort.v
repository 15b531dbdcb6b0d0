(** * Resize work of the linear hashtable over whole histories *)
From Verif Require Export HashLinWork TableProps.
Global Open Scope Z_scope.

(** A run of a client of the linear hashtable with the struct after each
    operation. *)
Definition hl_trace := list (top * tout * option hashlin).

(** Buckets split or merged by one operation: how many buckets became valid or
    stopped being valid. *)
Definition op_work (cs cs' : option hashlin) : Z :=
  match cs, cs' with Some st, Some st' => hl_moves st st' | _, _ => 0 end.

Fixpoint total_work (cs : option hashlin) (l : hl_trace) : Z :=
  match l with [] => 0 | x :: l => op_work cs x.2 + total_work x.2 l end.

Definition is_update (o : top) : bool :=
  match o with TInsert _ _ _ | TRemove _ _ _ _ | TRemoveExisting _ => true | _ => false end.

Definition updates (l : hl_trace) : Z := Z.of_nat (length (filter (λ x, is_update x.1.1 = true) l)).

Lemma total_work_snoc cs l x : total_work cs (l ++ [x]) = total_work cs l + op_work (struct_after cs l) x.2.
Proof. revert cs. induction l as [|y l IH]; intros cs; simpl; [lia|]. rewrite IH. lia. Qed.

Lemma updates_snoc l x : updates (l ++ [x]) = updates l + (if is_update x.1.1 then 1 else 0).
Proof.
  rewrite /updates filter_app app_length Nat2Z.inj_add. f_equal.
  rewrite filter_cons filter_nil. by destruct (is_update x.1.1).
Qed.

Lemma bucket_remove_result {R} fuel cmp arg h found notfound : ∀ node m (r : R) m',
  bucket_remove fuel cmp arg h node found notfound m = Ok r m' →
  (∃ p m1, found p m1 = Ok r m') ∨ ∃ m1, notfound m1 = Ok r m'.
Proof.
  induction fuel as [|fuel IH]; intros node m r m' Hr; simpl in Hr; destruct (decide (node = null)); eauto; [done|].
  inv_bind Hr i m1 H1. inv_bind Hr ok m2 H2. destruct (decide (ok = true)); [eauto|].
  inv_bind Hr nx m3 H3. eauto.
Qed.

Definition credit' (cs : option hashlin) : Z := match cs with Some st => credit st | None => 0 end.

Lemma credit_nonneg st : 0 <= credit st.
Proof. rewrite /credit. destruct (decide (hl_state st = STATE_SHRINK)); lia. Qed.

Lemma hashlin_inv_small st n : hashlin_inv st n → Z.of_nat n < 2 ^ 60.
Proof.
  intros (Hc & (k & Hk & Hbm & Hbit) & Hmask & H64 & Hcase). pose proof (pow2_small k ltac:(lia)). lia.
Qed.

Lemma insert_work fuel st n p d h m st' m' :
  hashlin_inv st n → hashlin_insert fuel st p d h m = Ok st' m' → hl_moves st st' + credit st' <= credit st + 8.
Proof.
  intros Hi Hr. rewrite /hashlin_insert in Hr. inv_bind Hr b m1 H1. inv_bind Hr u m2 H2. inv_bind Hr u' m3 H3.
  eapply grow_step_work; [done|by eapply hashlin_inv_small|done].
Qed.

Lemma remove_existing_work st n p m r m' :
  hashlin_inv st n → (1 <= n)%nat →
  hashlin_remove_existing st p m = Ok r m' → hl_moves st r.1 + credit r.1 <= credit st + 8.
Proof.
  intros Hi Hn Hr. rewrite /hashlin_remove_existing in Hr. inv_bind Hr i m1 H1. inv_bind Hr b m2 H2. inv_bind Hr u m3 H3.
  inv_bind Hr st' m4 H4. inv_bind Hr d m5 H5. injection Hr as <- <-.
  eapply shrink_step_work; [done|by eapply hashlin_inv_small|done|done].
Qed.

Lemma hl_moves_same st : hl_moves st st = 0.
Proof. rewrite /hl_moves. lia. Qed.

Lemma shrink_loop_count lfuel : ∀ st tgt m st' m',
  hashlin_shrink_loop lfuel st tgt m = Ok st' m' → hl_count st' = hl_count st.
Proof.
  induction lfuel as [|lfuel IH]; intros st tgt m st' m' Hr; simpl in Hr;
    destruct (decide (tgt < wrap (hl_split st + hl_low_max st))); try done; try (by injection Hr as <- <-).
  inv_bind Hr s0 m1 H1. inv_bind Hr s1 m2 H2. inv_bind Hr u1 m3 H3.
  case_decide as Hend.
  - inv_bind Hr t1 m4 H4. inv_bind Hr sg m5 H5. inv_bind Hr u2 m6 H6. injection Hr as <- <-.
    rewrite /hl_set_bit in H4. case_decide; [|done]. by injection H4 as <- <-.
  - by apply IH in Hr.
Qed.

Lemma shrink_step_count st m st' m' :
  hashlin_shrink_step st m = Ok st' m' → hl_count st' = hl_count st.
Proof.
  intros Hr. rewrite /hashlin_shrink_step in Hr.
  match type of Hr with context [hashlin_shrink_loop _ ?t _] => set (t1 := t) in Hr end.
  assert (Hc : hl_count t1 = hl_count st).
  { subst t1. repeat case_decide; done. }
  destruct (decide (hl_state t1 = STATE_SHRINK)).
  - apply shrink_loop_count in Hr. by rewrite Hr.
  - by injection Hr as <- <-.
Qed.

Lemma remove_work fuel st n cmp arg h m r m' n' :
  hashlin_inv st n → hashlin_inv r.1 n' →
  hashlin_remove fuel st cmp arg h m = Ok r m' → hl_moves st r.1 + credit r.1 <= credit st + 8.
Proof.
  intros Hi Hi' Hr. rewrite /hashlin_remove in Hr. inv_bind Hr b m1 H1. inv_bind Hr x m2 H2.
  apply bucket_remove_result in Hr as [(p & m3 & Hr)|(m3 & Hr)].
  - inv_bind Hr u m4 H4. inv_bind Hr st' m5 H5. inv_bind Hr d m6 H6. injection Hr as <- <-.
    destruct (decide (1 <= n)%nat) as [Hn1|Hn1].
    + eapply shrink_step_work; [done|by eapply hashlin_inv_small|done|done].
    + (* the element removed would be the first of an empty table *)
      exfalso. simpl in *. assert (n = 0)%nat as -> by lia.
      destruct Hi as (Hc & _). pose proof (hashlin_inv_small _ _ Hi') as Hsm. destruct Hi' as (Hc' & _).
      apply shrink_step_count in H5. simpl in H5. rewrite Hc Hc' in H5.
      change (sub64 (Z.of_nat 0) 1) with (2 ^ 64 - 1) in H5. lia.
  - injection Hr as <- <-. simpl. rewrite hl_moves_same. lia.
Qed.

(** The elements before and after one operation. *)
Lemma work_invariant om K t live m fuel c l m' :
  table_start om K t live m → (size om ≤ fuel)%nat → allowed (tpre om K) tpost (tstate0 om live) c →
  run_all (tstep hashlin_table fuel t) None c m = Ok l m' →
  ∀ l1 l2, l = l1 ++ l2 → total_work None l1 + credit' (struct_after None l1) <= 8 * updates l1.
Proof.
  intros Hs Hf Ha Hr.
  assert (Hend : ∀ l1 l2, l = l1 ++ l2 → ∃ m1, table_end hashlin_table hashlin_inv om live (struct_after None l1) l1.*1 m1).
  { intros l1 l2 Heq. destruct (run_all_trunc _ c None m l m' l1 l2 Hr Heq) as (m1 & H1).
    pose proof (hashlin_history om K t live m fuel _ Hs Hf (trunc_allowed _ _ (length l1) _ _ Ha)) as Hh.
    unfold safe in Hh. rewrite H1 in Hh. exists m1. apply Hh. }
  intros l1. induction l1 as [|[[o a] cs'] l1 IH] using rev_ind; intros l2 Heq; [done|].
  rewrite -app_assoc /= in Heq. specialize (IH _ Heq).
  destruct (Hend _ _ Heq) as (m1 & s & int & Hc & _ & _ & Htab).
  destruct (Hend (l1 ++ [(o, a, cs')]) l2) as (m2 & s' & int' & Hc' & _ & _ & Htab'); [by rewrite -app_assoc|].
  pose proof (run_all_pre _ (tpre om K) tpost c None m l m' l1 o a cs' l2 _ _ Hr Heq Ha Hc) as Hpre.
  destruct (run_all_step _ c None m l m' l1 o a cs' l2 Hr Heq) as (m3 & m4 & Hstep).
  rewrite struct_after_snoc in Htab' |- *. rewrite total_work_snoc updates_snoc. simpl.
  change (tb_st hashlin_table) with hashlin in *. set (cs := struct_after None l1) in *. clearbody cs.
  rewrite fmap_app in Hc'. apply correct_app in Hc' as (s1 & Hc1 & Hc2).
  assert (Hsame : cs' = cs → is_update o = false → total_work None l1 + op_work cs cs' + credit' cs' <= 8 * (updates l1 + (if is_update o then 1 else 0))).
  { intros -> ->. destruct cs as [st|]; simpl in *; rewrite ?hl_moves_same; lia. }
  assert (Hupd : ∀ st st', cs = Some st → cs' = Some st' → is_update o = true → hl_moves st st' + credit st' <= credit st + 8 →
    total_work None l1 + op_work cs cs' + credit' cs' <= 8 * (updates l1 + (if is_update o then 1 else 0))).
  { intros st st' -> -> -> Hw. simpl in *. lia. }
  assert (Hcredit : 0 <= credit' cs) by (destruct cs; [apply credit_nonneg|done]).
  rewrite /tstep in Hstep.
  destruct o as [n|p d h|f g arg h|p|f g arg h|h| | |arg| |]; simpl in Hpre.
  - (* init *)
    destruct Hpre as [Ht _]. rewrite Ht in Htab. destruct Htab as [-> _]. inv_bind Hstep st m5 H5.
    injection Hstep as <- <- <-. simpl in *. rewrite /hashlin_init in H5. inv_bind H5 sg m6 H6. injection H5 as <- <-.
    rewrite credit_other; [|done]. lia.
  - destruct Hpre as (_ & (es & Ht) & _). rewrite Ht in Htab. destruct Htab as (st & -> & Hinv & _).
    inv_bind Hstep st' m5 H5. injection Hstep as <- <- <-. eapply Hupd; [done..|]. by eapply insert_work.
  - destruct Hpre as ((es & Ht & _) & _). rewrite Ht in Htab. destruct Htab as (st & -> & Hinv & _).
    inv_bind Hstep r m5 H5. inv_bind Hstep cl m6 H6. injection Hstep as <- <- <-.
    inversion Hc2 as [|? ? ? s2 ? ? Hpost Hc3]; subst. inversion Hc3; subst.
    assert (∃ n', hashlin_inv r.1 n') as [n' Hinv'].
    { destruct Hpost as [(es1 & e & es2 & _ & _ & _ & _ & ->)|(es1 & Ht1 & _ & _ & ->)].
      - destruct Htab' as (st' & [= <-] & Hinv' & _). eauto.
      - rewrite Ht1 in Htab'. destruct Htab' as (st' & [= <-] & Hinv' & _). eauto. }
    eapply Hupd; [done..|]. by eapply remove_work.
  - destruct Hpre as (es & Ht & Hin). rewrite Ht in Htab. destruct Htab as (st & -> & Hinv & _).
    inv_bind Hstep r m5 H5. injection Hstep as <- <- <-. eapply Hupd; [done..|].
    eapply remove_existing_work; [done| |done]. destruct es; [by apply elem_of_nil in Hin|simpl; lia].
  - destruct cs as [st|]; [|done]. inv_bind Hstep x m5 H5. inv_bind Hstep y m6 H6. injection Hstep as <- <- <-. by apply Hsame.
  - destruct cs as [st|]; [|done]. inv_bind Hstep x m5 H5. inv_bind Hstep y m6 H6. injection Hstep as <- <- <-. by apply Hsame.
  - destruct cs as [st|]; [|done]. injection Hstep as <- <- <-. by apply Hsame.
  - destruct cs as [st|]; [|done]. inv_bind Hstep x m5 H5. inv_bind Hstep y m6 H6. injection Hstep as <- <- <-. by apply Hsame.
  - destruct cs as [st|]; [|done]. inv_bind Hstep x m5 H5. inv_bind Hstep y m6 H6. injection Hstep as <- <- <-. by apply Hsame.
  - destruct cs as [st|]; [|done]. inv_bind Hstep x m5 H5. inv_bind Hstep y m6 H6. injection Hstep as <- <- <-. by apply Hsame.
  - destruct cs as [st|]; [|done]. inv_bind Hstep x m5 H5. injection Hstep as <- <- <-. simpl in *. lia.
Qed.

(** Over any history, at most eight buckets are split or merged per insert and
    remove, on average. *)
Lemma hashlin_amortised om K t live m fuel c :
  table_start om K t live m → (size om ≤ fuel)%nat → allowed (tpre om K) tpost (tstate0 om live) c →
  safe (run_all (tstep hashlin_table fuel t) None c m) (λ l _, total_work None l <= 8 * updates l).
Proof.
  intros Hs Hf Ha. pose proof (hashlin_history om K t live m fuel c Hs Hf Ha) as Hh. unfold safe in *.
  destruct (run (tstep hashlin_table fuel t) None c m) as [r m'| | |] eqn:E; try done.
  - destruct (run_all_ok _ _ _ _ _ _ E) as (l & Hl & ->). rewrite Hl.
    pose proof (work_invariant om K t live m fuel c l m' Hs Hf Ha Hl l [] (eq_sym (app_nil_r l))) as H.
    assert (0 <= credit' (struct_after None l)) by (destruct (struct_after None l); [apply credit_nonneg|done]). lia.
  - by rewrite (run_all_env _ _ _ _ _ E).
Qed.

(** ** Load factor *)
Lemma hashlin_load : after_any_history hashlin_table (λ om live cs tr _,
  ∃ s, correct tpost (tstate0 om live) tr s ∧
  match ts_tab s with
  | TabNone => cs = None
  | TabEs es => ∃ st, cs = Some st ∧
      64 <= hl_low_max st + hl_split st <= hl_bucket_max st ∧
      (hl_bucket_max st = 64 ∨ hl_bucket_max st <= 16 * Z.of_nat (length es)) ∧
      hl_count st = Z.of_nat (length es)
  | TabFreed => True
  end).
Proof.
  apply (hist_any hashlin_table hashlin_inv hashlin_history). intros om live cs tr m' (s & int & Hc & _ & _ & He).
  exists s. split; [done|]. destruct (ts_tab s) as [|es|]; [by destruct He| |done].
  destruct He as (st & -> & (Hcn & _ & _ & H64 & Hcase) & _). exists st. split; [done|].
  destruct Hcase as [(_ & H1 & H2 & H3 & H4)|[(_ & H1 & H2 & H3 & H4)|(_ & H1 & H2 & H3 & H4)]]; lia.
Qed.

Lemma hashlin_load_bounds : after_any_history hashlin_table (λ om live cs tr _,
  ∃ s, correct tpost (tstate0 om live) tr s ∧
  match ts_tab s with
  | TabNone => cs = None
  | TabEs es => ∃ st, cs = Some st ∧
      let n := Z.of_nat (length es) in
      let valid := hl_low_max st + hl_split st in
      (∃ k, 6 <= k <= 60 ∧ hl_bucket_max st = 2 ^ k ∧ hl_bucket_bit st = k) ∧
      hl_bucket_mask st = hl_bucket_max st - 1 ∧
      n <= valid ∧ (hl_state st ≠ STATE_SHRINK → 2 * (n - 1) <= valid) ∧
      (hl_state st = STATE_STABLE ∧ hl_split st = 0 ∧ hl_low_max st = hl_bucket_max st ∨
       hl_state st = STATE_GROW ∧ 1 <= hl_split st < hl_low_max st ∧ hl_bucket_max st = 2 * hl_low_max st ∨
       hl_state st = STATE_SHRINK ∧ 1 <= hl_split st < hl_low_max st ∧ hl_bucket_max st = 2 * hl_low_max st)
  | TabFreed => True
  end).
Proof.
  apply (hist_any hashlin_table hashlin_inv hashlin_history). intros om live cs tr m' (s & int & Hc & _ & _ & He).
  exists s. split; [done|]. destruct (ts_tab s) as [|es|]; [by destruct He| |done].
  destruct He as (st & -> & (Hcn & Hk & Hm & H64 & Hcase) & _). exists st. split; [done|]. cbn zeta.
  split; [done|]. split; [done|].
  destruct Hcase as [(Hs & H1 & H2 & H3 & H4)|[(Hs & H1 & H2 & H3 & H4)|(Hs & H1 & H2 & H3 & H4)]].
  - split; [lia|]. split; [lia|]. by left.
  - split; [lia|]. split; [lia|]. right; by left.
  - split; [lia|]. split; [done|]. right; by right.
Qed.
