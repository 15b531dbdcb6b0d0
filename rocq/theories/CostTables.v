(** * Accesses of the fixed and of the linear hashtable. *)
From Verif Require Export CostTable HashLinRelink CostLinSpec.
From Verif Require Import AccessSpec HashTblProof.
Global Open Scope Z_scope.

(** ** The last operation of a history of a table *)
Lemma table_step_accesses T inv
  (Hhist : ∀ om K t live m fuel c, table_start om K t live m → (size om ≤ fuel)%nat → allowed (tpre om K) tpost (tstate0 om live) c →
    safe (run (tstep T fuel t) None c m) (λ r m', table_end T inv om live r.1 r.2 m' ∧ unchanged_outside (HCTL :: t :: objs_cells om) m m'))
  om K t live m fuel n c cs tr m1 cs2 o a m2 ini ins rem :
  (∀ st h, at_most 1 (tb_bucket T st h)) → (∀ st h m i m', tb_bucket T st h m = Ok i m' → m' = m) →
  (∀ st, at_most 0 (tb_done T st)) →
  (∀ k st' n', cs2 = Some st' → inv st' n' → tb_init T k m1 = Ok st' m2 → ∃ log, logged (tb_init T k) m1 log (Ok st' m2) ∧ Z.of_nat (length log) ≤ ini) →
  (∀ p d h st st' n n', o = TInsert p d h → cs = Some st → cs2 = Some st' → inv st n → inv st' n' → tb_insert T fuel st p d h m1 = Ok st' m2 →
    ∃ log, logged (tb_insert T fuel st p d h) m1 log (Ok st' m2) ∧ Z.of_nat (length log) ≤ ins) →
  (∀ st n p r, cs = Some st → inv st n → tb_remove_existing T fuel st p m1 = Ok r m2 → cs2 = Some r.1 →
    ∃ log, logged (tb_remove_existing T fuel st p) m1 log (Ok r m2) ∧ Z.of_nat (length log) ≤ rem) →
  (∀ st n k f t a h xs r m', cs = Some st → inv st n → only_looks f → (i ← tb_bucket T st h; list_walk k i) m1 = Ok xs m1 →
    tb_remove T fuel st (tape_cmp t (λ _, f)) a h m1 = Ok r m' → cs2 = Some r.1 →
    ∃ log, logged (tb_remove T fuel st (tape_cmp t (λ _, f)) a h) m1 log (Ok r m') ∧ Z.of_nat (length log) ≤ rem + 3 * Z.of_nat (length xs)) →
  (∀ st k f t a h xs r m', only_looks f → (i ← tb_bucket T st h; list_walk k i) m1 = Ok xs m1 →
    tb_search T fuel st (tape_cmp t (λ _, f)) a h m1 = Ok r m' →
    ∃ log, logged (tb_search T fuel st (tape_cmp t (λ _, f)) a h) m1 log (Ok r m') ∧ Z.of_nat (length log) ≤ 1 + 3 * Z.of_nat (length xs)) →
  table_start om K t live m → (size om ≤ fuel)%nat → allowed (tpre om K) tpost (tstate0 om live) c → every tlooks c → no_visit o →
  run (tstep T fuel t) None (trunc n c) m = Ok (cs, tr) m1 →
  run (tstep T fuel t) None (trunc (S n) c) m = Ok (cs2, tr ++ [(o, a)]) m2 →
  ∃ log, logged (tstep T fuel t cs o) m1 log (Ok (cs2, a) m2) ∧
    table_within T ini ins rem om live tr cs o (Z.of_nat (length log)).
Proof.
  intros Hbk Hbm Hdn Hini Hins Hre Hrm Hse Hs Hf Ha Hl Hnv H1 H2.
  destruct (run_last_check _ (tstep T fuel t) (λ cs o m r m' H, or_introl H) _ _ _ _ _ _ _ _ _ _ _ H1 H2) as [H3 _]; [by rewrite H2|].
  assert (Hlook : tlooks o).
  { pose proof (run_every _ _ _ _ _ _ _ _ (every_trunc _ (S n) _ Hl) H2) as H. apply Forall_app in H as [_ H]. by apply Forall_cons in H as [? _]. }
  pose proof (Hhist om K t live m fuel (trunc n c) Hs Hf (trunc_allowed _ _ _ _ _ Ha)) as He1. rewrite H1 in He1.
  destruct He1 as [(s & int & Hc & _ & _ & Htab) _].
  pose proof (Hhist om K t live m fuel (trunc (S n) c) Hs Hf (trunc_allowed _ _ _ _ _ Ha)) as He2. rewrite H2 in He2.
  destruct He2 as [(s' & int' & Hc' & _ & _ & Htab') _]. cbn [fst snd] in *.
  assert (Hpre : tpre om K s o).
  { destruct (run_all_ok _ _ _ _ _ _ H2) as (l & Hl2 & [= _ Heq]). destruct l as [|[[o' a'] cs'] l _] using rev_ind; [by destruct tr|].
    rewrite fmap_app in Heq. apply app_inj_2 in Heq as [Heq [= -> ->]]; [|done].
    eapply (run_all_pre _ _ _ _ _ _ _ _ l o' a' cs' []); [exact Hl2|done|exact (trunc_allowed _ _ (S n) _ _ Ha)|]. by rewrite -Heq. }
  apply correct_app in Hc' as (s1 & Hc1 & Hc2). inversion Hc2 as [|? ? ? s2 ? ? Hpost Hc3]; subst. inversion Hc3; subst. clear Hc2 Hc3.
  unfold tstep in H3 |- *.
  assert (Hwalk : ∀ st es h, word h → chains T st es m1 → ∃ nodes, (i ← tb_bucket T st h; list_walk (length nodes) i) m1 = Ok nodes m1 ∧
    Z.of_nat (length nodes) = in_bucket T st es h).
  { intros st es h Hw Hch. destruct (Hch h Hw) as (i & xs & Hb & Hp & _ & Hx). exists ((λ e, (en_p e, en_d e)) <$> xs).
    rewrite fmap_length. split; [|unfold in_bucket; by rewrite (Permutation_length Hp)].
    unfold mbind, M_bind. rewrite Hb. by apply Hx. }
  assert (Hcont : ∀ es, ts_tab s = TabEs es → content om live tr es) by (intros es Hes; by exists s).
  destruct o as [k|p d h|f g arg h|p|f g arg h|h| | |arg| |]; cbn [tpre] in Hpre; cbn [table_within].
  - assert (H3' : (s ← tb_init T k; mret (Some s, TONone)) m1 = Ok (cs2, a) m2) by (by destruct cs).
    inv_bind H3' st' m3 E. injection H3' as <- <- <-. destruct Hpost as (_ & ->). destruct Htab' as (st'' & [= <-] & Hinv' & _). destruct (Hini _ _ _ eq_refl Hinv' E) as (l & L1 & L2).
    exists (l ++ []). rewrite app_nil_r. split; [|done].
    destruct cs; (rewrite -(app_nil_r l); eapply lg_bind; [exact L1|apply lg_ret]).
  - destruct Hpre as (_ & (es & Ht) & _). rewrite Ht in Htab. destruct Htab as (st & -> & Hinv & _).
    inv_bind H3 st' m5 E. injection H3 as <- <- <-.
    destruct Hpost as (es1 & Ht1 & _ & ->). destruct Htab' as (st'' & [= <-] & Hinv' & _).
    destruct (Hins _ _ _ _ _ _ _ eq_refl eq_refl eq_refl Hinv Hinv' E) as (l & L1 & L2).
    exists (l ++ []). split; [eapply lg_bind; [exact L1|apply lg_ret]|]. by rewrite app_nil_r.
  - destruct Hpre as ((es & Ht & _) & Hw). rewrite Ht in Htab. destruct Htab as (st & -> & Hinv & _ & _ & Hch).
    inv_bind H3 r m5 E5. inv_bind H3 cl m6 E6. injection H3 as <- <- <-.
    destruct (Hwalk _ _ _ Hw Hch) as (nodes & Hn & Hlen).
    destruct (Hrm _ _ _ _ _ _ _ _ _ _ eq_refl Hinv Hlook Hn E5 eq_refl) as (l & L1 & L2).
    exists (l ++ [] ++ []). split; [eapply lg_bind; [exact L1|eapply lg_bind; [exact (lg_take' _ _ _ _ E6)|apply lg_ret]]|].
    rewrite !app_nil_r. exists st, es. split; [done|]. split; [by apply Hcont|]. lia.
  - destruct Hpre as (es & Ht & _). rewrite Ht in Htab. destruct Htab as (st & -> & Hinv & _).
    inv_bind H3 r m5 E5. injection H3 as <- <- <-.
    destruct (Hre _ _ _ _ eq_refl Hinv E5 eq_refl) as (l & L1 & L2).
    exists (l ++ []). split; [eapply lg_bind; [exact L1|apply lg_ret]|]. by rewrite app_nil_r.
  - destruct Hpre as ((es & Ht & _) & Hw). rewrite Ht in Htab. destruct Htab as (st & -> & Hinv & _ & _ & Hch).
    inv_bind H3 r m5 E5. inv_bind H3 cl m6 E6. injection H3 as <- <- <-.
    destruct (Hwalk _ _ _ Hw Hch) as (nodes & Hn & Hlen).
    destruct (Hse _ _ _ _ _ _ _ _ _ Hlook Hn E5) as (l & L1 & L2).
    exists (l ++ [] ++ []). split; [eapply lg_bind; [exact L1|eapply lg_bind; [exact (lg_take' _ _ _ _ E6)|apply lg_ret]]|].
    rewrite !app_nil_r. exists st, es. split; [done|]. split; [by apply Hcont|]. lia.
  - destruct Hpre as ((es & Ht) & Hw). rewrite Ht in Htab. destruct Htab as (st & -> & Hinv & _ & _ & Hch).
    inv_bind H3 i m5 E5. inv_bind H3 r m6 E6. injection H3 as <- <- <-.
    destruct (Hwalk _ _ _ Hw Hch) as (nodes & Hn & Hlen). inv_bind Hn i' m7 E7. rewrite E5 in E7. injection E7 as <- <-.
    pose proof (Hbm _ _ _ _ _ E5) as ->.
    pose proof (walk_same _ _ _ _ _ _ _ _ Hn E6) as <-. destruct (walk_log _ _ _ _ _ E6) as (l & L1 & L2).
    destruct (lg_at_most _ _ _ _ _ (Hbk st h) E5) as (l0 & L3 & L4).
    exists (l0 ++ l ++ []). split; [eapply lg_bind; [exact L3|eapply lg_bind; [exact L1|apply lg_ret]]|].
    exists st, es. split; [done|]. split; [by apply Hcont|]. rewrite app_nil_r app_length. lia.
  - destruct cs as [st|]; [|done]. injection H3 as <- <- <-. exists []. split; [apply lg_ret|done].
  - done.
  - done.
  - done.
  - destruct cs as [st|]; [|done]. inv_bind H3 u m5 E5. injection H3 as <- <- <-.
    destruct (lg_at_most _ _ _ _ _ (Hdn st) E5) as (l & L1 & L2).
    exists (l ++ []). split; [eapply lg_bind; [exact L1|apply lg_ret]|]. rewrite app_nil_r. destruct l; [done|cbn in L2; lia].
Qed.

(** ** The fixed table *)
Lemma am_memset n : ∀ a, at_most n (memset0 a n).
Proof.
  induction n as [|n IH]; intros a; cbn [memset0]; [apply am_ret|]. eapply am_le; [eapply am_bind; [apply am_store|intros _; apply IH]|lia].
Qed.
Lemma ht_init_accesses k n m st m' : hashtable_inv st n → hashtable_init k m = Ok st m' →
  ∃ log, logged (hashtable_init k) m log (Ok st m') ∧ Z.of_nat (length log) ≤ ht_bucket_max st.
Proof.
  intros ((j & Hj & HM) & _) Hr. pose proof (pow2_small j ltac:(lia)) as Hp. unfold hashtable_init in *.
  set (bm := if decide (k < 16) then 16 else roundup_pow2 k) in *. inv_bind Hr b m1 E1. inv_bind Hr u m2 E2. injection Hr as <- <-.
  cbn [ht_bucket_max] in *. destruct (lg_at_most _ _ _ _ _ (am_malloc _) E1) as (l1 & H1 & H2).
  destruct (lg_at_most _ _ _ _ _ (am_memset _ _) E2) as (l2 & H3 & H4). exists (l1 ++ l2 ++ []). split.
  - eapply lg_bind; [exact H1|]. eapply lg_bind; [exact H3|apply lg_ret].
  - rewrite !app_length. cbn [length]. rewrite HM in H4 |- *. rewrite /wrap Z.mod_small in H4; [|lia]. rewrite Z.div_mul // in H4. lia.
Qed.
Lemma ht_remove_accesses fuel k st f t a h xs m r m' : only_looks f →
  (i ← hashtable_bucket st h; list_walk k i) m = Ok xs m →
  hashtable_remove fuel st (tape_cmp t (λ _, f)) a h m = Ok r m' →
  ∃ log, logged (hashtable_remove fuel st (tape_cmp t (λ _, f)) a h) m log (Ok r m') ∧
    Z.of_nat (length log) ≤ 10 + 3 * Z.of_nat (length xs).
Proof.
  intros Hf Hw Hr. unfold hashtable_bucket, hashtable_remove in *. inv_bind Hw i m1 E1.
  assert (m1 = m) as -> by (unfold load in E1; repeat case_match; by simplify_eq).
  inv_bind Hr j m1 E2. rewrite E1 in E2. injection E2 as <- <-.
  lazymatch type of Hr with bucket_remove _ _ _ _ _ ?fd _ _ = _ =>
    assert (Hfd : ∀ p m v m', fd p m = Ok v m' → ∃ log, logged (fd p) m log (Ok v m') ∧ Z.of_nat (length log) ≤ 9) end.
  { intros p m0 v m0' E. refine (_ (lg_at_most 9 _ _ _ _ _ E)); [intros (l & L1 & L2); exists l; split; [done|lia]|]. am. }
  assert (Hnf : ∀ m v m', (mret (st, 0) : M (hashtable * Z)) m = Ok v m' → ∃ log, logged (mret (st, 0)) m log (Ok v m') ∧ Z.of_nat (length log) ≤ 9).
  { intros m0 v m0' [= <- <-]. exists []. split; [apply lg_ret|]. cbn. lia. }
  destruct (remove_walk f t a h _ _ (λ _, 9) _ Hf Hfd Hnf _ _ _ _ _ _ Hw Hr) as (l1 & H1 & H2).
  exists ([AWord (hashtable_ref st (Z.land h (ht_bucket_mask st)))] ++ l1). split.
  - eapply lg_bind; [exact (lg_load' _ _ _ _ E1)|exact H1].
  - rewrite app_length. cbn [length]. lia.
Qed.
Lemma ht_search_accesses fuel k st f t a h xs m r m' : only_looks f →
  (i ← hashtable_bucket st h; list_walk k i) m = Ok xs m →
  hashtable_search fuel st (tape_cmp t (λ _, f)) a h m = Ok r m' →
  ∃ log, logged (hashtable_search fuel st (tape_cmp t (λ _, f)) a h) m log (Ok r m') ∧
    Z.of_nat (length log) ≤ 1 + 3 * Z.of_nat (length xs).
Proof.
  intros Hf Hw Hr. unfold hashtable_search in *. inv_bind Hw i m1 E1.
  assert (m1 = m) as -> by (unfold hashtable_bucket, load in E1; repeat case_match; by simplify_eq).
  inv_bind Hr j m1 E2. rewrite E1 in E2. injection E2 as <- <-.
  destruct (search_walk f t a h _ Hf _ _ _ _ _ _ Hw Hr) as (l1 & H1 & H2).
  destruct (lg_at_most _ _ _ _ _ (am_ht_bucket st h) E1) as (l0 & H3 & H4).
  exists (l0 ++ l1). split; [by eapply lg_bind|]. rewrite app_length. lia.
Qed.

Lemma ht_step_accesses om K t live m fuel n c cs tr m1 cs2 o a m2 :
  table_start om K t live m → (size om ≤ fuel)%nat → allowed (tpre om K) tpost (tstate0 om live) c → every tlooks c → no_visit o →
  run (tstep hashtable_table fuel t) None (trunc n c) m = Ok (cs, tr) m1 →
  run (tstep hashtable_table fuel t) None (trunc (S n) c) m = Ok (cs2, tr ++ [(o, a)]) m2 →
  ∃ log, logged (tstep hashtable_table fuel t cs o) m1 log (Ok (cs2, a) m2) ∧
    table_within hashtable_table (ht_buckets cs2) 9 10 om live tr cs o (Z.of_nat (length log)).
Proof.
  apply (table_step_accesses hashtable_table hashtable_inv hashtable_history); cbn [hashtable_table tb_bucket tb_done tb_init tb_insert tb_remove_existing tb_remove tb_search tb_st].
  - apply am_ht_bucket.
  - intros st h m0 i m' E. unfold hashtable_bucket, load in E. repeat case_match; by simplify_eq.
  - intros st. apply am_free.
  - intros k st' n' -> Hi E. exact (ht_init_accesses _ _ _ _ _ Hi E).
  - intros p d h st st' n0 n' -> -> -> _ _ E. destruct (lg_at_most _ _ _ _ _ (am_ht_insert _ _ _ _) E) as (l & L1 & L2). exists l. split; [done|lia].
  - intros st n0 p r -> _ E _. destruct (lg_at_most _ _ _ _ _ (am_ht_remove_existing _ _) E) as (l & L1 & L2). exists l. split; [done|lia].
  - intros st n0 k f t0 a0 h xs r m' -> _ Hf Hw E _. exact (ht_remove_accesses _ _ _ _ _ _ _ _ _ _ _ Hf Hw E).
  - intros st k f t0 a0 h xs r m' Hf Hw E. exact (ht_search_accesses _ _ _ _ _ _ _ _ _ _ _ Hf Hw E).
Qed.

(** ** The linear table *)
Lemma lg_at_most0 {A} (c : M A) m v m' : at_most 0 c → c m = Ok v m' → logged c m [] (Ok v m').
Proof. intros Hc Hr. destruct (lg_at_most _ _ _ _ _ Hc Hr) as (l & H1 & H2). destruct l; [done|cbn in H2; lia]. Qed.
Lemma ct_flush fuel : ∀ s0 s1 mask j, counted 9 0 (hashlin_flush fuel s0 s1 mask j) (hashlin_flush_w fuel s0 s1 mask j).
Proof.
  induction fuel as [|fuel IH]; intros s0 s1 mask j; cbn [hashlin_flush hashlin_flush_w]; (destruct (decide (j = null)); [apply ct_ret; lia|]).
  - apply ct_fuel.
  - ct. ct. ct. eapply (ct_step _ _ 6); [am|intros _]. eapply (ct_tail _ _ 0 _ _ (λ r, 1 + r.2)); [apply IH|]. intros ? ?. cbn [snd]. lia.
Qed.
Lemma lg_store' a x m v m' : store a x m = Ok v m' → logged (store a x) m [AWord a] (Ok v m').
Proof. intros <-. constructor. Qed.

Lemma hl_grow_loop_accesses lfuel : ∀ fuel st tgt m st' m',
  0 <= hl_split st < hl_low_max st → hl_low_max st <= 2 ^ 60 → hl_bucket_max st = 2 * hl_low_max st →
  hashlin_grow_loop fuel lfuel st tgt m = Ok st' m' →
  ∃ x log, hashlin_grow_loop_w fuel lfuel st tgt m = Ok (st', x) m' ∧ logged (hashlin_grow_loop fuel lfuel st tgt) m log (Ok st' m') ∧
    Z.of_nat (length log) ≤ 3 * (hl_valid_buckets st' - hl_valid_buckets st) + 9 * x ∧
    (hl_valid_buckets st < hl_valid_buckets st' ∨ hl_valid_buckets st = hl_valid_buckets st' ∧ x = 0).
Proof.
  induction lfuel as [|lfuel IH]; intros fuel st tgt m st' m' Hs Hl Hb Hr; cbn [hashlin_grow_loop hashlin_grow_loop_w] in *; destruct (decide _) as [Hlt|Hge]; try done.
  - injection Hr as <- <-. exists 0, []. split; [done|]. split; [apply lg_ret|]. cbn. lia.
  - inv_bind Hr s0 m1 H1. inv_bind Hr s1 m2 H2. inv_bind Hr j m3 H3. inv_bind Hr u1 m4 H4. inv_bind Hr u2 m5 H5. inv_bind Hr u3 m6 H6.
    destruct (ct_flush fuel s0 s1 (hl_low_max st) j m5) as (lf & Lf & Lf2). destruct (Lf2 _ _ H6) as (y & Hy & Hly). rewrite H6 in Lf.
    assert (Hw1 : wrap (hl_split st + 1) = hl_split st + 1) by (rewrite /wrap Z.mod_small; lia). rewrite Hw1 in Hr |- *.
    assert (∃ x log, (let t := hl_set_split st (hl_split st + 1) in
        if decide (hl_split t = hl_low_max t) then mret (hashlin_stable t, y)
        else r ← hashlin_grow_loop_w fuel lfuel t tgt; mret (r.1, y + r.2)) m6 = Ok (st', x) m' ∧
      logged (let t := hl_set_split st (hl_split st + 1) in
        if decide (hl_split t = hl_low_max t) then mret (hashlin_stable t) else hashlin_grow_loop fuel lfuel t tgt) m6 log (Ok st' m') ∧
      Z.of_nat (length log) ≤ 3 * (hl_valid_buckets st' - hl_valid_buckets st - 1) + 9 * (x - y) ∧
      hl_valid_buckets st < hl_valid_buckets st') as (x & log & Hx & Hlog & Hlen & Hv).
    { cbv zeta. unfold hl_valid_buckets. destruct (decide (hl_split (hl_set_split st (hl_split st + 1)) = _)) as [Hend|Hend]; cbn [hl_set_split hl_split hl_low_max] in Hend.
      - injection Hr as <- <-. exists y, []. split; [done|]. split; [apply lg_ret|]. cbn. lia.
      - destruct (IH fuel (hl_set_split st (hl_split st + 1)) tgt m6 st' m') as (x & log & X1 & X2 & X3 & X4); [cbn; lia|cbn; lia|cbn; lia|done|].
        unfold hl_valid_buckets in *. cbn [hl_set_split hl_split hl_low_max] in *. exists (y + x), log. split; [unfold mbind, M_bind; by rewrite X1|]. split; [done|]. lia. }
    exists x, ([] ++ [] ++ [AWord s0] ++ [AWord s0] ++ [AWord s1] ++ lf ++ log). split; [|split].
    + unfold mbind, M_bind in *. rewrite H1 H2 H3 H4 H5 Hy. exact Hx.
    + eapply lg_bind; [exact (lg_at_most0 _ _ _ _ (am_hl_pos _ _) H1)|]. eapply lg_bind; [exact (lg_at_most0 _ _ _ _ (am_hl_pos _ _) H2)|].
      eapply lg_bind; [exact (lg_load' _ _ _ _ H3)|]. eapply lg_bind; [exact (lg_store' _ _ _ _ _ H4)|]. eapply lg_bind; [exact (lg_store' _ _ _ _ _ H5)|].
      eapply lg_bind; [exact Lf|exact Hlog].
    + rewrite !app_length. cbn [length]. split; [lia|by left].
  - injection Hr as <- <-. exists 0, []. split; [done|]. split; [apply lg_ret|]. cbn. lia.
Qed.

Lemma hl_shrink_loop_accesses lfuel : ∀ st tgt m st' m',
  1 <= hl_split st <= hl_low_max st → hl_low_max st <= 2 ^ 60 → shl64 1 (hl_bucket_bit st - 1) = hl_low_max st →
  hashlin_shrink_loop lfuel st tgt m = Ok st' m' →
  ∃ log, logged (hashlin_shrink_loop lfuel st tgt) m log (Ok st' m') ∧
    Z.of_nat (length log) ≤ 7 * (hl_valid_buckets st - hl_valid_buckets st').
Proof.
  induction lfuel as [|lfuel IH]; intros st tgt m st' m' Hs Hl Hb Hr; cbn [hashlin_shrink_loop] in *; destruct (decide _) as [Hlt|Hge]; try done.
  - injection Hr as <- <-. exists []. split; [apply lg_ret|]. cbn. lia.
  - assert (Hw1 : sub64 (hl_split st) 1 = hl_split st - 1) by (rewrite /sub64 Z.mod_small; lia). rewrite Hw1 in Hr |- *.
    inv_bind Hr s0 m1 H1. inv_bind Hr s1 m2 H2. inv_bind Hr u m3 H3.
    destruct (lg_at_most _ _ _ _ _ (am_concat _ _) H3) as (lc & Lc & Lc2).
    assert (∃ log, logged (let t := hl_set_split st (hl_split st - 1) in
        if decide (hl_split t = 0) then t ← hl_set_bit t (hl_bucket_bit t - 1); segment ← hl_get t (hl_bucket_bit t); free (seg_ref segment (shl64 1 (hl_bucket_bit t)));; mret (hashlin_stable t)
        else hashlin_shrink_loop lfuel t tgt) m3 log (Ok st' m') ∧
      Z.of_nat (length log) ≤ 7 * (hl_valid_buckets st - 1 - hl_valid_buckets st')) as (log & Hlog & Hlen).
    { cbv zeta. unfold hl_valid_buckets. destruct (decide (hl_split (hl_set_split st (hl_split st - 1)) = 0)) as [Hend|Hend]; cbn [hl_set_split hl_split] in Hend.
      - inv_bind Hr t1 m4 H4. inv_bind Hr sg m5 H5. inv_bind Hr u2 m6 H6. injection Hr as <- <-. exists ([] ++ [] ++ [] ++ []).
        split; [|rewrite /hl_set_bit in H4; case_decide; [|done]; injection H4 as <- <-; cbn; lia].
        eapply lg_bind; [|eapply lg_bind; [exact (lg_at_most0 _ _ _ _ (am_hl_get _ _) H5)|eapply lg_bind; [exact (lg_free' _ _ _ _ H6)|apply lg_ret]]].
        apply lg_at_most0; [|done]. unfold hl_set_bit. case_decide; [apply am_ret|apply am_ub].
      - destruct (IH (hl_set_split st (hl_split st - 1)) tgt m3 st' m') as (log & X1 & X2); [cbn in *; lia|cbn; lia|exact Hb|done|].
        unfold hl_valid_buckets in *. cbn [hl_set_split hl_split hl_low_max] in *. exists log. split; [done|]. lia. }
    exists ([] ++ [] ++ lc ++ log). split; [|rewrite !app_length; cbn [length]; lia].
    eapply lg_bind; [exact (lg_at_most0 _ _ _ _ (am_hl_pos _ _) H1)|]. eapply lg_bind; [exact (lg_at_most0 _ _ _ _ (am_hl_pos _ _) H2)|].
    eapply lg_bind; [exact Lc|exact Hlog].
  - injection Hr as <- <-. exists []. split; [apply lg_ret|]. cbn. lia.
Qed.

Lemma am_hl_set t i p : at_most 0 (hl_set t i p).
Proof. unfold hl_set. case_decide; [apply am_ret|apply am_ub]. Qed.
Lemma am_hl_set_bit t b : at_most 0 (hl_set_bit t b).
Proof. unfold hl_set_bit. case_decide; [apply am_ret|apply am_ub]. Qed.

(** what the first half of grow_step leaves *)
Definition hl_grow_start (t : hashlin) : M hashlin :=
  if decide (hl_state t ≠ STATE_GROW ∧ hl_bucket_max t / 2 < hl_count t) then
         t ← (if decide (hl_state t = STATE_STABLE) then
                let t := hl_set_low t (hl_bucket_max t) (hl_bucket_mask t) in
                segment ← malloc (wrap (hl_low_max t * 8));
                t ← hl_set t (hl_bucket_bit t) (seg_ref segment (- hl_low_max t));
                t ← hl_set_bit t (hl_bucket_bit t + 1);
                mret (hl_set_split t 0)
              else mret t);
         mret (hl_set_state t STATE_GROW)
       else mret t.
Lemma hl_grow_start_accesses st n c m st1 m1 : hashlin_inv st n →
  hl_grow_start (hl_set_count st c) m = Ok st1 m1 →
  logged (hl_grow_start (hl_set_count st c)) m [] (Ok st1 m1) ∧ hl_valid_buckets st1 = hl_valid_buckets st ∧
  (hl_state st1 = STATE_GROW → 0 <= hl_split st1 < hl_low_max st1 ∧ hl_low_max st1 <= 2 ^ 60 ∧ hl_bucket_max st1 = 2 * hl_low_max st1).
Proof.
  intros (Hc & (k & Hk & Hbm & Hbit) & Hmask & H64 & Hcase) Hr.
  pose proof (pow2_small k ltac:(lia)) as Hsm. assert (2 ^ k ≤ 2 ^ 60) by (apply Z.pow_le_mono_r; lia).
  split.
  { apply lg_at_most0; [|done]. unfold hl_grow_start. change 0%nat with (0 `max` 0)%nat. apply am_if; [|apply am_ret].
    change 0%nat with (0 + 0)%nat. eapply am_bind; [|intros ?; apply am_ret]. change 0%nat with (0 `max` 0)%nat. apply am_if; [|apply am_ret].
    change 0%nat with (0 + (0 + (0 + 0)))%nat. eapply am_bind; [apply am_malloc|intros ?]. eapply am_bind; [apply am_hl_set|intros ?].
    eapply am_bind; [apply am_hl_set_bit|intros ?; apply am_ret]. }
  unfold hl_grow_start in Hr. cbn [hl_set_count hl_state hl_bucket_max hl_count] in Hr.
  destruct (decide (hl_state st ≠ STATE_GROW ∧ _)) as [[Hng _]|Hno].
  - inv_bind Hr st2 m2 H2. injection Hr as <- <-. destruct (decide (hl_state st = STATE_STABLE)) as [Hst|Hst].
    + destruct Hcase as [(_ & Hsp & Hlow & _)|[(Hx & _)|(Hx & _)]]; [|by rewrite Hst in Hx..].
      inv_bind H2 sg m3 H3. inv_bind H2 st3 m4 H4. inv_bind H2 st4 m5 H5. injection H2 as <- <-.
      rewrite /hl_set in H4. case_decide; [|done]. injection H4 as <- <-.
      rewrite /hl_set_bit in H5. case_decide; [|done]. injection H5 as <- <-.
      cbn -[Z.pow] in *. unfold hl_valid_buckets. cbn -[Z.pow]. rewrite Hbit shl64_pow'; [|lia]. rewrite Z.pow_add_r; [|lia..]. lia.
    + injection H2 as <- <-. destruct Hcase as [(Hx & _)|[(Hx & _)|(Hx & Hsp & Hb2 & _)]]; [by rewrite Hx in Hst|by rewrite Hx in Hng|].
      unfold hl_valid_buckets. cbn -[Z.pow]. lia.
  - injection Hr as <- <-. unfold hl_valid_buckets. cbn -[Z.pow]. split; [done|]. intros Hst.
    destruct Hcase as [(Hx & _)|[(Hx & Hsp & Hb2 & _)|(Hx & _)]]; [by rewrite Hx in Hst| |by rewrite Hx in Hst]. lia.
Qed.

Lemma hl_insert_accesses fuel st n p d h m st' m' : hashlin_inv st n →
  hashlin_insert fuel st p d h m = Ok st' m' →
  ∃ x log, hashlin_insert_w fuel st p d h m = Ok (st', x) m' ∧ logged (hashlin_insert fuel st p d h) m log (Ok st' m') ∧
    Z.of_nat (length log) ≤ 9 + 3 * hl_moves st st' + 9 * x ∧ (hl_moves st st' = 0 → x = 0).
Proof.
  intros Hi Hr. unfold hashlin_insert, hashlin_insert_w in *. inv_bind Hr b m1 E1. inv_bind Hr u m2 E2. inv_bind Hr u2 m3 E3.
  destruct (lg_at_most _ _ _ _ _ (am_insert_tail _ _ _) E2) as (l2 & L2 & N2).
  assert (∃ x log, hashlin_grow_step_w fuel (hl_set_count st (wrap (hl_count st + 1))) m3 = Ok (st', x) m' ∧
    logged (hashlin_grow_step fuel (hl_set_count st (wrap (hl_count st + 1)))) m3 log (Ok st' m') ∧
    Z.of_nat (length log) ≤ 3 * hl_moves st st' + 9 * x ∧ (hl_moves st st' = 0 → x = 0)) as (x & log & X1 & X2 & X3 & X4).
  { unfold hashlin_grow_step, hashlin_grow_step_w in *. fold (hl_grow_start (hl_set_count st (wrap (hl_count st + 1)))) in *.
    inv_bind Hr st1 m4 E4. destruct (hl_grow_start_accesses _ _ _ _ _ _ Hi E4) as (L4 & Hv & Hg). unfold hl_moves.
    destruct (decide (hl_state st1 = STATE_GROW)) as [Hst|Hst].
    - destruct (Hg Hst) as (G1 & G2 & G3). destruct (hl_grow_loop_accesses _ _ _ _ _ _ _ G1 G2 G3 Hr) as (x & log & Y1 & Y2 & Y3 & Y4).
      exists x, ([] ++ log). split; [unfold mbind at 1, M_bind at 1; rewrite E4 decide_True //|]. split; [eapply lg_bind; [exact L4|]; by rewrite decide_True|].
      cbn [app]. lia.
    - injection Hr as <- <-. exists 0, ([] ++ []). split; [unfold mbind at 1, M_bind at 1; rewrite E4 decide_False //|].
      split; [eapply lg_bind; [exact L4|]; rewrite decide_False //; apply lg_ret|]. cbn. lia. }
  exists x, ([] ++ l2 ++ [AWord (f_index p)] ++ log). split; [|split; [|split]].
  - unfold mbind, M_bind. rewrite E1 E2 E3. exact X1.
  - eapply lg_bind; [exact (lg_at_most0 _ _ _ _ (am_hl_ref _ _) E1)|]. eapply lg_bind; [exact L2|]. eapply lg_bind; [exact (lg_store' _ _ _ _ _ E3)|]. exact X2.
  - rewrite !app_length. cbn [length]. lia.
  - exact X4.
Qed.

Lemma hl_shrink_accesses st n c m st' m' : hashlin_inv st n →
  hashlin_shrink_step (hl_set_count st c) m = Ok st' m' →
  ∃ log, logged (hashlin_shrink_step (hl_set_count st c)) m log (Ok st' m') ∧ Z.of_nat (length log) ≤ 7 * hl_moves st st'.
Proof.
  intros (Hc & (k & Hk & Hbm & Hbit) & Hmask & H64 & Hcase) Hr.
  pose proof (pow2_small k ltac:(lia)) as Hsm. assert (2 ^ k ≤ 2 ^ 60) by (apply Z.pow_le_mono_r; lia).
  unfold hashlin_shrink_step in *.
  set (st1 := if decide (hl_state (hl_set_count st c) ≠ STATE_SHRINK ∧ _) then _ else _) in *.
  assert (H1 : hl_valid_buckets st1 = hl_valid_buckets st ∧ (hl_state st1 = STATE_SHRINK →
    1 <= hl_split st1 <= hl_low_max st1 ∧ hl_low_max st1 <= 2 ^ 60 ∧ shl64 1 (hl_bucket_bit st1 - 1) = hl_low_max st1)).
  { assert (Hk1 : 2 ^ k = 2 * 2 ^ (k - 1)) by (rewrite -{1}(Z.sub_add 1 k) Z.pow_add_r; lia).
    assert (2 ^ k / 2 = 2 ^ (k - 1)) by (rewrite Hk1 Z.mul_comm Z.div_mul //).
    assert (shl64 1 (hl_bucket_bit st - 1) = 2 ^ (k - 1)) by (rewrite Hbit shl64_pow'; lia).
    unfold hl_valid_buckets. subst st1. cbn -[Z.pow]. destruct (decide (hl_state st ≠ STATE_SHRINK ∧ _)) as [[Hns _]|Hno].
    - cbn -[Z.pow]. destruct (decide (hl_state st = STATE_STABLE)) as [Hst|Hst]; cbn -[Z.pow].
      + destruct Hcase as [(_ & Hsp & Hlow & _)|[(Hx & _)|(Hx & _)]]; [|by rewrite Hst in Hx..]. rewrite Hbm in Hlow |- *. lia.
      + destruct Hcase as [(Hx & _)|[(Hx & Hsp & Hb2 & _)|(Hx & _)]]; [done| |done]. lia.
    - cbn -[Z.pow]. split; [done|]. intros Hst.
      destruct Hcase as [(Hx & _)|[(Hx & _)|(Hx & Hsp & Hb2 & _)]]; [by rewrite Hx in Hst|by rewrite Hx in Hst|]. lia. }
  clearbody st1. destruct H1 as [Hv Hg]. unfold hl_moves. cbv zeta in *. destruct (decide (hl_state st1 = STATE_SHRINK)) as [Hst|Hst].
  - destruct (Hg Hst) as (G1 & G2 & G3). destruct (hl_shrink_loop_accesses _ _ _ _ _ _ G1 G2 G3 Hr) as (log & Y1 & Y2). exists log. split; [done|]. lia.
  - injection Hr as <- <-. exists []. split; [apply lg_ret|]. cbn. lia.
Qed.

Lemma hl_found_accesses st n l p m r m' : hashlin_inv st n →
  (list_remove_existing l p;; t ← hashlin_shrink_step (hl_set_count st (sub64 (hl_count st) 1)); data ← load (f_data p); mret (t, data)) m = Ok r m' →
  ∃ log, logged (list_remove_existing l p;; t ← hashlin_shrink_step (hl_set_count st (sub64 (hl_count st) 1)); data ← load (f_data p); mret (t, data))
    m log (Ok r m') ∧ Z.of_nat (length log) ≤ 9 + 7 * hl_moves st r.1.
Proof.
  intros Hi Hr. inv_bind Hr u m1 E1. inv_bind Hr st' m2 E2. inv_bind Hr d m3 E3. injection Hr as <- <-.
  destruct (lg_at_most _ _ _ _ _ (am_remove _ _) E1) as (l1 & H1 & H2). destruct (hl_shrink_accesses _ _ _ _ _ _ Hi E2) as (l2 & H3 & H4).
  exists (l1 ++ l2 ++ [AWord (f_data p)] ++ []). split.
  - eapply lg_bind; [exact H1|]. eapply lg_bind; [exact H3|]. eapply lg_bind; [exact (lg_load' _ _ _ _ E3)|apply lg_ret].
  - rewrite !app_length. cbn [length fst]. lia.
Qed.
Lemma hl_remove_existing_accesses st n p m r m' : hashlin_inv st n →
  hashlin_remove_existing st p m = Ok r m' →
  ∃ log, logged (hashlin_remove_existing st p) m log (Ok r m') ∧ Z.of_nat (length log) ≤ 10 + 7 * hl_moves st r.1.
Proof.
  intros Hi Hr. unfold hashlin_remove_existing in *. inv_bind Hr i m1 E1. inv_bind Hr b m2 E2.
  destruct (hl_found_accesses _ _ _ _ _ _ _ Hi Hr) as (l1 & H1 & H2). exists ([AWord (f_index p)] ++ [] ++ l1). split.
  - eapply lg_bind; [exact (lg_load' _ _ _ _ E1)|]. eapply lg_bind; [exact (lg_at_most0 _ _ _ _ (am_hl_ref _ _) E2)|exact H1].
  - rewrite !app_length. cbn [length]. lia.
Qed.
Lemma hl_pos_mem st i m v m' : hashlin_pos st i m = Ok v m' → m' = m.
Proof.
  unfold hashlin_pos. intros Hr. inv_bind Hr b m1 E1. inv_bind Hr s m2 E2. injection Hr as <- <-.
  assert (m1 = m) as -> by (unfold ilog2 in E1; case_decide; [done|by injection E1 as _ ->]).
  unfold hl_get in E2. case_decide; [|done]. destruct (hl_bucket st !! _) as [[?|]|]; [|done..]. by injection E2 as _ ->.
Qed.
Lemma hl_ref_mem st h m v m' : hashlin_bucket_ref st h m = Ok v m' → m' = m.
Proof. apply hl_pos_mem. Qed.
Lemma hl_bucket_mem st h m v m' : hashlin_bucket st h m = Ok v m' → m' = m.
Proof.
  unfold hashlin_bucket. intros Hr. inv_bind Hr b m1 E1. apply hl_ref_mem in E1 as ->. unfold load in Hr. repeat case_match; by simplify_eq.
Qed.
Lemma hl_remove_accesses fuel k st n f t a h xs m r m' : hashlin_inv st n → only_looks f →
  (i ← hashlin_bucket st h; list_walk k i) m = Ok xs m →
  hashlin_remove fuel st (tape_cmp t (λ _, f)) a h m = Ok r m' →
  ∃ log, logged (hashlin_remove fuel st (tape_cmp t (λ _, f)) a h) m log (Ok r m') ∧
    Z.of_nat (length log) ≤ 10 + 7 * hl_moves st r.1 + 3 * Z.of_nat (length xs).
Proof.
  intros Hi Hf Hw Hr. inv_bind Hw i m1 E1. pose proof (hl_bucket_mem _ _ _ _ _ E1) as ->. unfold hashlin_bucket in E1. unfold hashlin_remove in *.
  inv_bind E1 b m1 E0. pose proof (hl_ref_mem _ _ _ _ _ E0) as ->.
  inv_bind Hr b' m1 E0'. rewrite E0 in E0'. injection E0' as <- <-.
  inv_bind Hr j m1 E2. rewrite E1 in E2. injection E2 as <- <-.
  assert (Hnf : ∀ m v m', (mret (st, 0) : M (hashlin * Z)) m = Ok v m' → ∃ log, logged (mret (st, 0)) m log (Ok v m') ∧
    Z.of_nat (length log) ≤ 9 + 7 * hl_moves st v.1).
  { intros m0 v m0' [= <- <-]. exists []. split; [apply lg_ret|]. cbn. rewrite hl_moves_same. lia. }
  destruct (remove_walk f t a h _ _ (λ r : hashlin * Z, 9 + 7 * hl_moves st r.1) _ Hf
    (λ p m v m', hl_found_accesses st n b p m v m' Hi) Hnf _ _ _ _ _ _ Hw Hr) as (l1 & H1 & H2).
  exists ([] ++ [AWord b] ++ l1). split.
  - eapply lg_bind; [exact (lg_at_most0 _ _ _ _ (am_hl_ref _ _) E0)|]. eapply lg_bind; [exact (lg_load' _ _ _ _ E1)|exact H1].
  - rewrite !app_length. cbn [length]. lia.
Qed.
Lemma hl_search_accesses fuel k st f t a h xs m r m' : only_looks f →
  (i ← hashlin_bucket st h; list_walk k i) m = Ok xs m →
  hashlin_search fuel st (tape_cmp t (λ _, f)) a h m = Ok r m' →
  ∃ log, logged (hashlin_search fuel st (tape_cmp t (λ _, f)) a h) m log (Ok r m') ∧
    Z.of_nat (length log) ≤ 1 + 3 * Z.of_nat (length xs).
Proof.
  intros Hf Hw Hr. unfold hashlin_search in *. inv_bind Hw i m1 E1. pose proof (hl_bucket_mem _ _ _ _ _ E1) as ->.
  inv_bind Hr j m1 E2. rewrite E1 in E2. injection E2 as <- <-.
  destruct (search_walk f t a h _ Hf _ _ _ _ _ _ Hw Hr) as (l1 & H1 & H2).
  destruct (lg_at_most _ _ _ _ _ (am_hl_bucket st h) E1) as (l0 & H3 & H4).
  exists (l0 ++ l1). split; [by eapply lg_bind|]. rewrite app_length. lia.
Qed.
Lemma am_hl_init : at_most 0 hashlin_init.
Proof.
  unfold hashlin_init, calloc_words. change 0%nat with (0 + 0)%nat. eapply am_bind; [|intros ?; apply am_ret].
  change 0%nat with (0 `max` 0)%nat. apply am_if; am_prim.
Qed.
Lemma am_hl_done_loop n : ∀ t i, at_most 0 (hashlin_done_loop n t i).
Proof.
  induction n as [|n IH]; intros t i; cbn [hashlin_done_loop]; [apply am_ret|].
  change 0%nat with (0 + (0 + 0))%nat. eapply am_bind; [apply am_hl_get|intros ?]. eapply am_bind; [apply am_free|intros _; apply IH].
Qed.
Lemma am_hl_done t : at_most 0 (hashlin_done t).
Proof.
  unfold hashlin_done. change 0%nat with (0 + (0 + 0))%nat. eapply am_bind; [apply am_hl_get|intros ?]. eapply am_bind; [apply am_free|intros _; apply am_hl_done_loop].
Qed.

(** The table with an insert that stops if more elements are linked again than there are. *)
Definition hashlin_insert_a (fuel : nat) (st : hashlin) (p d h : Z) : M hashlin :=
  r ← hashlin_insert_w fuel st p d h; massert (bool_decide (r.2 ≤ hl_count r.1));; mret r.1.
Definition hashlin_table_a : table :=
  Table hashlin (fun _ => hashlin_init) hashlin_done hashlin_insert_a hashlin_remove
    (fun _ => hashlin_remove_existing) hashlin_search hashlin_bucket hashlin_count
    hashlin_foreach hashlin_foreach_arg hashlin_memory_usage
    (fun st h => if decide (h mod hl_low_max st < hl_split st) then h mod hl_bucket_max st else h mod hl_low_max st).

Section asserted.
  Context `{!memG} (t : Z).
  Definition hl_proof_a : memG_env → table_proof hashlin_table_a hashlin_inv t.
  Proof.
    intros Henv. refine (TableProof hashlin_table_a hashlin_inv _ t hl_rep hl_shell hl_shell_of hl_rep_inv _ wp_hl_done
      _ (wp_hl_remove t) (wp_hl_remove_existing) (wp_hl_search t) wp_hl_bucket wp_hl_foreach_ro wp_hl_foreach _
      hl_visits hl_chains hl_blocks hl_memory).
    - intros. by apply wp_hl_init.
    - intros fuel st es p d h cl Φ Hf Hw. iIntros "HR Hp HΦ". cbn [hashlin_table_a tb_insert tb_st]. unfold hashlin_insert_a. wp_bind.
      iApply (wp_hl_insert_w with "HR Hp"); [done..|]. iIntros (st' x Hx) "(%int & %Hd & HR & Hc)". iDestruct (hl_rep_inv with "HR") as %(_ & Hcount & _).
      cbn [fst snd] in *. wp_assert; [apply bool_decide_eq_true; lia|]. wp_ret.
      iApply "HΦ". iExists int. by iFrame.
    - done.
  Defined.
End asserted.

Lemma hashlin_history_a om K t live m fuel c :
  table_start om K t live m → (size om ≤ fuel)%nat →
  allowed (tpre om K) tpost (tstate0 om live) c →
  safe (run (tstep hashlin_table_a fuel t) None c m) (λ _ _, True).
Proof.
  intros Hs Hf Ha. pose proof (table_history hashlin_table_a hashlin_inv om K t live m fuel c) as H.
  unfold safe in *. assert (H' := H ltac:(intros; by apply hl_proof_a) Hs Hf Ha).
  by destruct (run (tstep hashlin_table_a fuel t) None c m).
Qed.

(** the counting version does the same *)
Lemma hl_grow_loop_same lfuel : ∀ fuel st tgt m st' m', hashlin_grow_loop fuel lfuel st tgt m = Ok st' m' →
  ∃ x, hashlin_grow_loop_w fuel lfuel st tgt m = Ok (st', x) m'.
Proof.
  induction lfuel as [|lfuel IH]; intros fuel st tgt m st' m' Hr; cbn [hashlin_grow_loop hashlin_grow_loop_w] in *; destruct (decide _) as [Hlt|Hge]; try done;
    try (injection Hr as <- <-; by exists 0).
  inv_bind Hr s0 m1 H1. inv_bind Hr s1 m2 H2. inv_bind Hr j m3 H3. inv_bind Hr u1 m4 H4. inv_bind Hr u2 m5 H5. inv_bind Hr u3 m6 H6.
  destruct (ct_flush fuel s0 s1 (hl_low_max st) j m5) as (lf & _ & Lf2). destruct (Lf2 _ _ H6) as (y & Hy & _).
  unfold mbind, M_bind. rewrite H1 H2 H3 H4 H5 Hy. case_decide.
  - injection Hr as <- <-. by exists y.
  - destruct (IH _ _ _ _ _ _ Hr) as (x & Hx). unfold mbind, M_bind in Hx. rewrite Hx. by exists (y + x).
Qed.
Lemma hl_insert_same fuel st p d h m st' m' : hashlin_insert fuel st p d h m = Ok st' m' →
  ∃ x, hashlin_insert_w fuel st p d h m = Ok (st', x) m'.
Proof.
  intros Hr. unfold hashlin_insert, hashlin_insert_w in *. inv_bind Hr b m1 E1. inv_bind Hr u m2 E2. inv_bind Hr u2 m3 E3.
  unfold hashlin_grow_step, hashlin_grow_step_w in *. fold (hl_grow_start (hl_set_count st (wrap (hl_count st + 1)))) in *. inv_bind Hr st1 m4 E4.
  unfold mbind, M_bind. rewrite E1 E2 E3 E4. case_decide.
  - destruct (hl_grow_loop_same _ _ _ _ _ _ _ Hr) as (x & Hx). by exists x.
  - injection Hr as <- <-. by exists 0.
Qed.
Lemma tstep_lin_a fuel t cs o m r m' : tstep hashlin_table fuel t cs o m = Ok r m' →
  tstep hashlin_table_a fuel t cs o m = Ok r m' ∨ tstep hashlin_table_a fuel t cs o m = UB.
Proof.
  destruct o; try by left. destruct cs as [st|]; [|by left]. cbn [tstep hashlin_table hashlin_table_a tb_insert tb_st].
  intros Hr. inv_bind Hr st' m1 E1. injection Hr as <- <-. destruct (hl_insert_same _ _ _ _ _ _ _ _ E1) as (x & Hx).
  unfold hashlin_insert_a, mbind, M_bind. rewrite Hx. unfold massert. cbn [fst snd]. destruct (bool_decide _); [by left|by right].
Qed.

Lemma hl_step_accesses om K t live m fuel n c cs tr m1 cs2 o a m2 :
  table_start om K t live m → (size om ≤ fuel)%nat → allowed (tpre om K) tpost (tstate0 om live) c → every tlooks c → no_visit o →
  run (tstep hashlin_table fuel t) None (trunc n c) m = Ok (cs, tr) m1 →
  run (tstep hashlin_table fuel t) None (trunc (S n) c) m = Ok (cs2, tr ++ [(o, a)]) m2 →
  ∃ log, logged (tstep hashlin_table fuel t cs o) m1 log (Ok (cs2, a) m2) ∧
    table_within hashlin_table 0 (hl_insert_within cs cs2) (hl_remove_within cs cs2) om live tr cs o (Z.of_nat (length log)).
Proof.
  intros Hs Hf Ha Hl Hnv H1 H2.
  assert (Hub : run (tstep hashlin_table_a fuel t) None (trunc (S n) c) m ≠ UB).
  { pose proof (hashlin_history_a om K t live m fuel (trunc (S n) c) Hs Hf (trunc_allowed _ _ _ _ _ Ha)) as H. intros E. by rewrite E in H. }
  destruct (run_last_check _ _ (tstep_lin_a fuel t) _ _ _ _ _ _ _ _ _ _ _ H1 H2 Hub) as [_ H4].
  apply (table_step_accesses hashlin_table hashlin_inv hashlin_history om K t live m fuel n c cs tr m1 cs2 o a m2); try done;
    cbn [hashlin_table tb_bucket tb_done tb_init tb_insert tb_remove_existing tb_remove tb_search tb_st].
  - apply am_hl_bucket.
  - apply hl_bucket_mem.
  - apply am_hl_done.
  - intros k st' n' -> _ E. exists []. split; [exact (lg_at_most0 _ _ _ _ am_hl_init E)|done].
  - intros p d h st st' n0 n' -> -> -> Hi _ E. destruct (hl_insert_accesses _ _ _ _ _ _ _ _ _ Hi E) as (x & log & X1 & X2 & X3 & X4).
    exists log. split; [done|]. cbn [tstep hashlin_table_a tb_insert tb_st] in H4. inv_bind H4 st2 m6 E'. injection H4 as -> <- ->.
    unfold hashlin_insert_a in E'. inv_bind E' r m7 E2. inv_bind E' u m8 E3. injection E' as <- <-. unfold massert in E3.
    destruct (bool_decide _) eqn:Ed; [|done]. injection E3 as _ ->. apply bool_decide_eq_true in Ed. rewrite X1 in E2. simplify_eq.
    cbn [fst snd] in *. unfold hl_insert_within. cbn [op_work hl_count_of]. assert (r.2 = x) by (by rewrite -E2). case_decide as Hz; [rewrite (X4 Hz) in X3; lia|lia].
  - intros st n0 p r -> Hi E ->. exact (hl_remove_existing_accesses _ _ _ _ _ _ Hi E).
  - intros st n0 k f t0 a0 h xs r m' -> Hi Hlk Hw E ->. exact (hl_remove_accesses _ _ _ _ _ _ _ _ _ _ _ _ Hi Hlk Hw E).
  - intros st k f t0 a0 h xs r m' Hlk Hw E. exact (hl_search_accesses _ _ _ _ _ _ _ _ _ _ _ Hlk Hw E).
Qed.
