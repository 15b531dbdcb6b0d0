(** * Resize work of the dynamic hashtable over whole histories *)
From Verif Require Export HashDynProof HashLinAmort.
Global Open Scope Z_scope.

(** A run of a client of the dynamic hashtable with the struct after each
    operation. *)
Definition hd_trace := list (top * tout * option hashdyn).

(** Work of one operation beyond its own bucket: growing goes through all the
    old buckets and relinks all the elements, shrinking goes through all the
    new buckets.  Either number is the difference of the two. *)
Definition hd_work (st st' : hashdyn) : Z :=
  Z.abs (hd_bucket_max st' - hd_bucket_max st) +
  (if decide (hd_bucket_max st < hd_bucket_max st') then hd_count st' else 0).

Definition hd_op_work (cs cs' : option hashdyn) : Z :=
  match cs, cs' with Some st, Some st' => hd_work st st' | _, _ => 0 end.

Fixpoint hd_total_work (cs : option hashdyn) (l : hd_trace) : Z :=
  match l with [] => 0 | x :: l => hd_op_work cs x.2 + hd_total_work x.2 l end.

Definition hd_updates (l : hd_trace) : Z := Z.of_nat (length (filter (λ x, is_update x.1.1 = true) l)).

Lemma hd_total_work_snoc cs l x :
  hd_total_work cs (l ++ [x]) = hd_total_work cs l + hd_op_work (struct_after cs l) x.2.
Proof. revert cs. induction l as [|y l IH]; intros cs; simpl; [lia|]. rewrite IH. lia. Qed.

Lemma hd_updates_snoc l x : hd_updates (l ++ [x]) = hd_updates l + (if is_update x.1.1 then 1 else 0).
Proof.
  rewrite /hd_updates filter_app app_length Nat2Z.inj_add. f_equal.
  rewrite filter_cons filter_nil. by destruct (is_update x.1.1).
Qed.

(** Work saved for the next resize: a quarter full is the load after one. *)
Definition hd_credit (st : hashdyn) : Z :=
  6 * Z.max 0 (hd_count st - hd_bucket_max st / 4) +
  (if decide (hd_bucket_max st = 16) then 0 else 6 * Z.max 0 (hd_bucket_max st / 4 - hd_count st)).
Definition hd_credit' (cs : option hashdyn) : Z := match cs with Some st => hd_credit st | None => 0 end.

Lemma hd_credit_nonneg st : 0 <= hd_credit st.
Proof. rewrite /hd_credit. destruct (decide (hd_bucket_max st = 16)); lia. Qed.

Lemma hd_work_same st : hd_work st st = 0.
Proof. rewrite /hd_work. rewrite decide_False; lia. Qed.

Lemma hashdyn_inv_small st n : hashdyn_inv st n → Z.of_nat n < 2 ^ 62.
Proof. intros ((k & Hk & Hb & _) & _ & _ & H & _). pose proof (pow2_small k ltac:(lia)). lia. Qed.
Lemma hashdyn_inv_pow st n : hashdyn_inv st n → ∃ k, 0 <= k ∧ hd_bucket_max st = 2 ^ k.
Proof. intros ((k & Hk & Hb & _) & _). exists k. split; [lia|done]. Qed.

(** Powers of two *)
Lemma pow2_16 b : (∃ k, 0 <= k ∧ b = 2 ^ k) → 16 <= b → ∃ q, b = 16 * q ∧ 1 <= q.
Proof.
  intros (k & Hk & ->) H16. destruct (decide (4 <= k)).
  - exists (2 ^ (k - 4)). split; [change 16 with (2 ^ 4); rewrite -Z.pow_add_r; [f_equal; lia|lia..]|].
    assert (0 < 2 ^ (k - 4)) by (apply Z.pow_pos_nonneg; lia). lia.
  - assert (2 ^ k <= 2 ^ 3) by (apply Z.pow_le_mono_r; lia). lia.
Qed.
Lemma pow2_between b b' : (∃ k, 0 <= k ∧ b = 2 ^ k) → (∃ k, 0 <= k ∧ b' = 2 ^ k) → b < b' < 4 * b → b' = 2 * b.
Proof.
  intros (k & Hk & ->) (k' & Hk' & ->) [H1 H2]. change 4 with (2 ^ 2) in H2. rewrite -Z.pow_add_r in H2; [|lia..].
  apply Z.pow_lt_mono_r_iff in H1; [|lia..]. apply Z.pow_lt_mono_r_iff in H2; [|lia..].
  assert (k' = Z.succ k) as -> by lia. by rewrite Z.pow_succ_r.
Qed.

(** The size changes only at the thresholds. *)
Lemma hd_resize_count fuel st bit m st' m' : hashdyn_resize fuel st bit m = Ok st' m' → hd_count st' = hd_count st.
Proof.
  intros Hr. rewrite /hashdyn_resize in Hr. case_decide; [done|]. inv_bind Hr nb m1 H1. inv_bind Hr u m2 H2.
  inv_bind Hr u' m3 H3. by injection Hr as <- <-.
Qed.
Lemma hd_grow_result fuel st m st' m' : hashdyn_grow_step fuel st m = Ok st' m' →
  hd_count st' = hd_count st ∧ (st' = st ∨ hd_bucket_max st / 2 <= hd_count st).
Proof.
  rewrite /hashdyn_grow_step. case_decide; intros Hr; [by apply hd_resize_count in Hr; auto|].
  injection Hr as <- <-. auto.
Qed.
Lemma hd_shrink_result fuel st m st' m' : hashdyn_shrink_step fuel st m = Ok st' m' →
  hd_count st' = hd_count st ∧ (st' = st ∨ hd_count st <= hd_bucket_max st / 8).
Proof.
  rewrite /hashdyn_shrink_step. case_decide as Hd; intros Hr; [by apply hd_resize_count in Hr; destruct Hd; auto|].
  injection Hr as <- <-. auto.
Qed.

Lemma hd_grow_work fuel st n n' m st' m' : hashdyn_inv st n → hashdyn_inv st' n' →
  hashdyn_grow_step fuel (hd_set_count st (wrap (hd_count st + 1))) m = Ok st' m' →
  hd_work st st' + hd_credit st' <= hd_credit st + 6.
Proof.
  intros Hi Hi' Hr. pose proof (hashdyn_inv_small _ _ Hi) as Hn.
  pose proof (hashdyn_inv_pow _ _ Hi) as Hk. pose proof (hashdyn_inv_pow _ _ Hi') as Hk'.
  destruct Hi as (_ & _ & H16 & Hlt & Hge & Hc), Hi' as (_ & _ & H16' & Hlt' & Hge' & Hc').
  apply hd_grow_result in Hr as [Hcount Hr]. cbn [hd_set_count hd_count hd_bucket_max] in *.
  rewrite Hc /wrap Z.mod_small in Hcount; [|lia]. rewrite Hc' in Hcount.
  destruct (pow2_16 _ Hk H16) as (q & Hq & Hq1).
  assert (H4 : hd_bucket_max st / 4 = 4 * q) by (rewrite Hq; symmetry; apply (Z.div_unique _ _ _ 0); lia).
  destruct Hr as [->|Hr].
  - cbn [hd_bucket_max hd_count] in *. rewrite /hd_work /hd_credit /= decide_False; [|lia].
    rewrite H4 Hc. rewrite Hc in Hc'. case_decide; rewrite /wrap ?Z.mod_small; lia.
  - assert (H2 : hd_bucket_max st / 2 = 8 * q) by (rewrite Hq; symmetry; apply (Z.div_unique _ _ _ 0); lia).
    rewrite Hc /wrap Z.mod_small in Hr; [|lia]. rewrite H2 in Hr.
    assert (Hb' : hd_bucket_max st' = 2 * hd_bucket_max st) by (apply pow2_between; [done..|lia]).
    assert (H4' : hd_bucket_max st' / 4 = 8 * q) by (rewrite Hb' Hq; symmetry; apply (Z.div_unique _ _ _ 0); lia).
    rewrite /hd_work /hd_credit decide_True; [|lia]. rewrite H4 H4' Hc Hc' Hb' Hq.
    rewrite decide_False; [|lia]. case_decide; lia.
Qed.

Lemma hd_shrink_work fuel st n n' m st' m' : hashdyn_inv st n → hashdyn_inv st' n' → (1 <= n)%nat →
  hashdyn_shrink_step fuel (hd_set_count st (sub64 (hd_count st) 1)) m = Ok st' m' →
  hd_work st st' + hd_credit st' <= hd_credit st + 6.
Proof.
  intros Hi Hi' Hn1 Hr. pose proof (hashdyn_inv_small _ _ Hi) as Hn.
  pose proof (hashdyn_inv_pow _ _ Hi) as Hk. pose proof (hashdyn_inv_pow _ _ Hi') as Hk'.
  destruct Hi as (_ & _ & H16 & Hlt & Hge & Hc), Hi' as (_ & _ & H16' & Hlt' & Hge' & Hc').
  apply hd_shrink_result in Hr as [Hcount Hr]. cbn [hd_set_count hd_count hd_bucket_max] in *.
  assert (Hw : sub64 (hd_count st) 1 = Z.of_nat n - 1) by (rewrite Hc /sub64 Z.mod_small; lia).
  rewrite Hw Hc' in Hcount.
  destruct (pow2_16 _ Hk H16) as (q & Hq & Hq1).
  assert (H4 : hd_bucket_max st / 4 = 4 * q) by (rewrite Hq; symmetry; apply (Z.div_unique _ _ _ 0); lia).
  destruct Hr as [->|Hr].
  - cbn [hd_bucket_max hd_count hd_set_count] in *. rewrite /hd_work /hd_credit /= decide_False; [|lia].
    rewrite H4 Hw Hc. case_decide; lia.
  - assert (H2 : hd_bucket_max st / 8 = 2 * q) by (rewrite Hq; symmetry; apply (Z.div_unique _ _ _ 0); lia).
    rewrite Hw H2 in Hr.
    destruct (decide (hd_bucket_max st = 16)) as [Hb|Hb].
    + (* the smallest size *)
      assert (hd_bucket_max st' = 16) as Hb' by lia.
      rewrite /hd_work /hd_credit decide_False; [|lia]. rewrite !(decide_True (P := _ = 16)) //.
      rewrite Hb Hb' Hc Hc'. change (16 / 4) with 4. lia.
    + assert (Hb' : hd_bucket_max st = 2 * hd_bucket_max st') by (apply pow2_between; [done..|lia]).
      assert (H4' : hd_bucket_max st' / 4 = 2 * q) by (symmetry; apply (Z.div_unique _ _ _ 0); lia).
      rewrite /hd_work /hd_credit decide_False; [|lia]. rewrite H4 H4' Hc Hc'.
      rewrite (decide_False (P := hd_bucket_max st = 16)) //. case_decide; lia.
Qed.

Lemma hd_insert_work fuel st n n' p d h m st' m' : hashdyn_inv st n → hashdyn_inv st' n' →
  hashdyn_insert fuel st p d h m = Ok st' m' → hd_work st st' + hd_credit st' <= hd_credit st + 6.
Proof.
  intros Hi Hi' Hr. rewrite /hashdyn_insert in Hr. inv_bind Hr u m1 H1. inv_bind Hr u' m2 H2. by eapply hd_grow_work.
Qed.
Lemma hd_remove_existing_work fuel st n n' p m r m' : hashdyn_inv st n → hashdyn_inv r.1 n' → (1 <= n)%nat →
  hashdyn_remove_existing fuel st p m = Ok r m' → hd_work st r.1 + hd_credit r.1 <= hd_credit st + 6.
Proof.
  intros Hi Hi' Hn1 Hr. rewrite /hashdyn_remove_existing in Hr. inv_bind Hr i m1 H1. inv_bind Hr u m2 H2.
  inv_bind Hr st' m3 H3. inv_bind Hr d m4 H4. injection Hr as <- <-. by eapply hd_shrink_work.
Qed.
Lemma hd_remove_work fuel st n n' cmp arg h m r m' : hashdyn_inv st n → hashdyn_inv r.1 n' →
  hashdyn_remove fuel st cmp arg h m = Ok r m' → hd_work st r.1 + hd_credit r.1 <= hd_credit st + 6.
Proof.
  intros Hi Hi' Hr. pose proof (hashdyn_inv_small _ _ Hi) as Hn. pose proof (hashdyn_inv_small _ _ Hi') as Hn'. rewrite /hashdyn_remove in Hr. inv_bind Hr x m2 H2.
  apply bucket_remove_result in Hr as [(p & m3 & Hr)|(m3 & Hr)].
  - inv_bind Hr u m4 H4. inv_bind Hr st' m5 H5. inv_bind Hr d m6 H6. injection Hr as <- <-. simpl in *.
    destruct (decide (1 <= n)%nat) as [Hn1|Hn1]; [by eapply hd_shrink_work|].
    exfalso. assert (n = 0)%nat as -> by lia. destruct Hi as (_ & _ & _ & _ & _ & Hc), Hi' as (_ & _ & _ & _ & _ & Hc').
    apply hd_shrink_result in H5 as [H5 _]. simpl in H5. rewrite Hc Hc' in H5.
    change (sub64 (Z.of_nat 0) 1) with (2 ^ 64 - 1) in H5. lia.
  - injection Hr as <- <-. simpl. rewrite hd_work_same. lia.
Qed.

Lemma hd_work_invariant om K t live m fuel c l m' :
  table_start om K t live m → (size om ≤ fuel)%nat → allowed (tpre om K) tpost (tstate0 om live) c →
  run_all (tstep hashdyn_table fuel t) None c m = Ok l m' →
  ∀ l1 l2, l = l1 ++ l2 → hd_total_work None l1 + hd_credit' (struct_after None l1) <= 6 * hd_updates l1.
Proof.
  intros Hs Hf Ha Hr.
  assert (Hend : ∀ l1 l2, l = l1 ++ l2 → ∃ m1, table_end hashdyn_table hashdyn_inv om live (struct_after None l1) l1.*1 m1).
  { intros l1 l2 Heq. destruct (run_all_trunc _ c None m l m' l1 l2 Hr Heq) as (m1 & H1).
    pose proof (hashdyn_history om K t live m fuel _ Hs Hf (trunc_allowed _ _ (length l1) _ _ Ha)) as Hh.
    unfold safe in Hh. rewrite H1 in Hh. exists m1. apply Hh. }
  intros l1. induction l1 as [|[[o a] cs'] l1 IH] using rev_ind; intros l2 Heq; [done|].
  rewrite -app_assoc /= in Heq. specialize (IH _ Heq).
  destruct (Hend _ _ Heq) as (m1 & s & int & Hc & _ & _ & Htab).
  destruct (Hend (l1 ++ [(o, a, cs')]) l2) as (m2 & s' & int' & Hc' & _ & _ & Htab'); [by rewrite -app_assoc|].
  pose proof (run_all_pre _ (tpre om K) tpost c None m l m' l1 o a cs' l2 _ _ Hr Heq Ha Hc) as Hpre.
  destruct (run_all_step _ c None m l m' l1 o a cs' l2 Hr Heq) as (m3 & m4 & Hstep).
  rewrite struct_after_snoc in Htab' |- *. rewrite hd_total_work_snoc hd_updates_snoc. simpl.
  change (tb_st hashdyn_table) with hashdyn in *. set (cs := struct_after None l1) in *. clearbody cs.
  rewrite fmap_app in Hc'. apply correct_app in Hc' as (s1 & Hc1 & Hc2).
  inversion Hc2 as [|? ? ? s2 ? ? Hpost Hc3]; subst. inversion Hc3; subst. clear Hc2 Hc3.
  assert (Hsame : cs' = cs → is_update o = false → hd_total_work None l1 + hd_op_work cs cs' + hd_credit' cs' <= 6 * (hd_updates l1 + (if is_update o then 1 else 0))).
  { intros -> ->. destruct cs as [st|]; simpl in *; rewrite ?hd_work_same; lia. }
  assert (Hupd : ∀ st st', cs = Some st → cs' = Some st' → is_update o = true → hd_work st st' + hd_credit st' <= hd_credit st + 6 →
    hd_total_work None l1 + hd_op_work cs cs' + hd_credit' cs' <= 6 * (hd_updates l1 + (if is_update o then 1 else 0))).
  { intros st st' -> -> -> Hw. simpl in *. lia. }
  assert (Hcredit : 0 <= hd_credit' cs) by (destruct cs; [apply hd_credit_nonneg|done]).
  rewrite /tstep in Hstep.
  destruct o as [n|p d h|f g arg h|p|f g arg h|h| | |arg| |]; simpl in Hpre.
  - (* init *)
    destruct Hpre as [Ht _]. rewrite Ht in Htab. destruct Htab as [-> _]. inv_bind Hstep st m5 H5.
    injection Hstep as <- <- <-. simpl in *. rewrite /hashdyn_init in H5. inv_bind H5 sg m6 H6. injection H5 as <- <-.
    rewrite (_ : hd_credit _ = 0); [lia|reflexivity].
  - destruct Hpre as (_ & (es & Ht) & _). rewrite Ht in Htab. destruct Htab as (st & -> & Hinv & _).
    inv_bind Hstep st' m5 H5. injection Hstep as <- <- <-. destruct Hpost as (es1 & Ht1 & _ & ->).
    destruct Htab' as (st'' & [= <-] & Hinv' & _). eapply Hupd; [done..|]. by eapply hd_insert_work.
  - destruct Hpre as ((es & Ht & _) & _). rewrite Ht in Htab. destruct Htab as (st & -> & Hinv & _).
    inv_bind Hstep r m5 H5. inv_bind Hstep cl m6 H6. injection Hstep as <- <- <-.
    assert (∃ n', hashdyn_inv r.1 n') as [n' Hinv'].
    { destruct Hpost as [(es1 & e & es2 & _ & _ & _ & _ & ->)|(es1 & Ht1 & _ & _ & ->)].
      - destruct Htab' as (st' & [= <-] & Hinv' & _). eauto.
      - rewrite Ht1 in Htab'. destruct Htab' as (st' & [= <-] & Hinv' & _). eauto. }
    eapply Hupd; [done..|]. by eapply hd_remove_work.
  - destruct Hpre as (es & Ht & Hin). rewrite Ht in Htab. destruct Htab as (st & -> & Hinv & _).
    inv_bind Hstep r m5 H5. injection Hstep as <- <- <-. destruct Hpost as (es1 & d & h & es2 & Ht1 & _ & ->).
    destruct Htab' as (st'' & [= <-] & Hinv' & _). eapply Hupd; [done..|].
    eapply hd_remove_existing_work; [done|done| |done]. destruct es; [by apply elem_of_nil in Hin|simpl; lia].
  - destruct cs as [st|]; [|done]. inv_bind Hstep x m5 H5. inv_bind Hstep y m6 H6. injection Hstep as <- <- <-. by apply Hsame.
  - destruct cs as [st|]; [|done]. inv_bind Hstep x m5 H5. inv_bind Hstep y m6 H6. injection Hstep as <- <- <-. by apply Hsame.
  - destruct cs as [st|]; [|done]. injection Hstep as <- <- <-. by apply Hsame.
  - destruct cs as [st|]; [|done]. inv_bind Hstep x m5 H5. inv_bind Hstep y m6 H6. injection Hstep as <- <- <-. by apply Hsame.
  - destruct cs as [st|]; [|done]. inv_bind Hstep x m5 H5. inv_bind Hstep y m6 H6. injection Hstep as <- <- <-. by apply Hsame.
  - destruct cs as [st|]; [|done]. inv_bind Hstep x m5 H5. inv_bind Hstep y m6 H6. injection Hstep as <- <- <-. by apply Hsame.
  - destruct cs as [st|]; [|done]. inv_bind Hstep x m5 H5. injection Hstep as <- <- <-. simpl in *. lia.
Qed.

(** Over any history, at most six buckets and elements are gone through by
    resizes per insert and remove, on average. *)
Lemma hashdyn_amortised om K t live m fuel c :
  table_start om K t live m → (size om ≤ fuel)%nat → allowed (tpre om K) tpost (tstate0 om live) c →
  safe (run_all (tstep hashdyn_table fuel t) None c m) (λ l _, hd_total_work None l <= 6 * hd_updates l).
Proof.
  intros Hs Hf Ha. pose proof (hashdyn_history om K t live m fuel c Hs Hf Ha) as Hh. unfold safe in *.
  destruct (run (tstep hashdyn_table fuel t) None c m) as [r m'| | |] eqn:E; try done.
  - destruct (run_all_ok _ _ _ _ _ _ E) as (l & Hl & ->). rewrite Hl.
    pose proof (hd_work_invariant om K t live m fuel c l m' Hs Hf Ha Hl l [] (eq_sym (app_nil_r l))) as H.
    assert (0 <= hd_credit' (struct_after None l)) by (destruct (struct_after None l); [apply hd_credit_nonneg|done]). lia.
  - by rewrite (run_all_env _ _ _ _ _ E).
Qed.
