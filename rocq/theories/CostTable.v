(** * Accesses of the hashtables: the walk of a bucket, and the resizes of the
    dynamic table. *)
From Verif Require Export CostCount HashDynWork CostTableSpec.
From Verif Require Import AccessSpec.
Global Open Scope Z_scope.

(** ** The walk of a bucket *)
Lemma lg_load' a m v m' : load a m = Ok v m' → logged (load a) m [AWord a] (Ok v m').
Proof. intros <-. constructor. Qed.
Lemma lg_take' t m v m' : tape_take t m = Ok v m' → logged (tape_take t) m [] (Ok v m').
Proof. intros <-. constructor. Qed.
Lemma lg_free' a m v m' : free a m = Ok v m' → logged (free a) m [] (Ok v m').
Proof. intros <-. constructor. Qed.
Lemma lg_cmp' t f a b m v m' : tape_cmp t f a b m = Ok v m' → logged (tape_cmp t f a b) m [] (Ok v m').
Proof. intros <-. constructor. Qed.
Lemma load_tape a v t ws ws' m m' : m !! t = Some (Tape ws) → load a m = Ok v m' →
  load a (<[t := Tape ws']> m) = Ok v (<[t := Tape ws']> m).
Proof.
  intros Ht. unfold load. destruct (m !! a) as [[z| | | |]|] eqn:E; try done. intros [= -> _].
  rewrite lookup_insert_ne; [|intros ->; congruence]. by rewrite E.
Qed.
Lemma walk_tape n : ∀ i t ws ws' xs m m', m !! t = Some (Tape ws) → list_walk n i m = Ok xs m' →
  list_walk n i (<[t := Tape ws']> m) = Ok xs (<[t := Tape ws']> m) ∧ m' = m.
Proof.
  induction n as [|n IH]; intros i t ws ws' xs m m' Ht; cbn [list_walk]; (destruct (decide (i = null)); [by intros [= <- <-]|]); [done|].
  unfold mbind, M_bind. unfold load at 1. destruct (m !! f_data i) as [[d| | | |]|] eqn:Ed; try done.
  unfold load at 1. destruct (m !! f_next i) as [[j| | | |]|] eqn:En; try done.
  destruct (list_walk n j m) as [ys m1| | |] eqn:Ew; try done. intros [= <- <-].
  destruct (IH _ _ _ ws' _ _ _ Ht Ew) as [Ew' ->].
  unfold load. rewrite lookup_insert_ne; [|intros ->; congruence]. rewrite Ed.
  rewrite lookup_insert_ne; [|intros ->; congruence]. rewrite En. by rewrite Ew'.
Qed.

Lemma walk_same n : ∀ n' i m xs m1 ys m2, list_walk n i m = Ok xs m1 → list_walk n' i m = Ok ys m2 → xs = ys.
Proof.
  induction n as [|n IH]; intros n' i m xs m1 ys m2; destruct n' as [|n']; cbn [list_walk];
    (destruct (decide (i = null)); [by intros [= <- _] [= <- _]|]); try done.
  intros H1 H2. inv_bind H1 d m3 E1. inv_bind H1 j m4 E2. inv_bind H1 l m5 E3. injection H1 as <- <-.
  inv_bind H2 d' m3' E1'. inv_bind H2 j' m4' E2'. inv_bind H2 l' m5' E3'. injection H2 as <- <-.
  rewrite E1 in E1'. injection E1' as <- <-. rewrite E2 in E2'. injection E2' as <- <-. by rewrite (IH _ _ _ _ _ _ _ E3 E3').
Qed.
Lemma walk_log n : ∀ i m xs m', list_walk n i m = Ok xs m' → ∃ log, logged (list_walk n i) m log (Ok xs m') ∧
  Z.of_nat (length log) = 2 * Z.of_nat (length xs).
Proof.
  induction n as [|n IH]; intros i m xs m'; cbn [list_walk]; (destruct (decide (i = null)); [intros [= <- <-]; exists []; split; [apply lg_ret|done]|]); [done|].
  intros H1. inv_bind H1 d m3 E1. inv_bind H1 j m4 E2. inv_bind H1 l m5 E3. injection H1 as <- <-. destruct (IH _ _ _ _ E3) as (log & L1 & L2).
  exists ([AWord (f_data i)] ++ [AWord (f_next i)] ++ log ++ []). split; [|rewrite !app_length; cbn [length]; lia].
  eapply lg_bind; [exact (lg_load' _ _ _ _ E1)|]. eapply lg_bind; [exact (lg_load' _ _ _ _ E2)|]. eapply lg_bind; [exact L1|apply lg_ret].
Qed.
Lemma looks_cmp f t a d m r m' : only_looks f → tape_cmp t (λ _, f) a d m = Ok r m' →
  ∃ ws ws', m !! t = Some (Tape ws) ∧ m' = <[t := Tape ws']> m.
Proof.
  intros Hf. unfold tape_cmp. destruct (m !! t) as [[| | |l|]|] eqn:Et; try done.
  destruct (Hf a d m) as [->|(v & Hv)]; [done|]. rewrite Hv; [|done]. intros [= <- <-]. by eexists _, _.
Qed.

Lemma remove_walk {R} f t a h (found : Z → M R) nf (k : R → Z) n : only_looks f →
  (∀ p m v m', found p m = Ok v m' → ∃ log, logged (found p) m log (Ok v m') ∧ Z.of_nat (length log) ≤ k v) →
  (∀ m v m', nf m = Ok v m' → ∃ log, logged nf m log (Ok v m') ∧ Z.of_nat (length log) ≤ k v) →
  ∀ fuel i xs m v m', list_walk n i m = Ok xs m → bucket_remove fuel (tape_cmp t (λ _, f)) a h i found nf m = Ok v m' →
  ∃ log, logged (bucket_remove fuel (tape_cmp t (λ _, f)) a h i found nf) m log (Ok v m') ∧
    Z.of_nat (length log) ≤ 3 * Z.of_nat (length xs) + k v.
Proof.
  intros Hf Hfound Hnf. induction n as [|n IH]; intros fuel i xs m v m' Hw Hr.
  { destruct fuel; cbn [list_walk bucket_remove] in *; destruct (decide (i = null)); try done;
      injection Hw as <-; destruct (Hnf _ _ _ Hr) as (log & H1 & H2); exists log; (split; [done|cbn; lia]). }
  cbn [list_walk] in Hw. destruct (decide (i = null)) as [Hi|Hi].
  { destruct fuel; cbn [bucket_remove] in *; rewrite ?(decide_True _ _ Hi) in Hr |- *;
      injection Hw as <-; destruct (Hnf _ _ _ Hr) as (log & H1 & H2); exists log; (split; [done|cbn; lia]). }
  destruct fuel as [|fuel]; cbn [bucket_remove] in *; rewrite (decide_False _ _ Hi) in Hr |- *; [done|].
  inv_bind Hw d m1 Hd. assert (m1 = m) as -> by (unfold load in Hd; repeat case_match; by simplify_eq).
  inv_bind Hw j m1 Hj. assert (m1 = m) as -> by (unfold load in Hj; repeat case_match; by simplify_eq).
  inv_bind Hw ys m1 Hys. injection Hw as <- ->.
  inv_bind Hr ix m2 Hix. assert (m2 = m) as -> by (unfold load in Hix; repeat case_match; by simplify_eq).
  inv_bind Hr ok m2 Hok.
  assert (Hcmp : ∃ log, logged (if decide (ix = h) then data ← load (f_data i); r ← tape_cmp t (λ _, f) a data; mret (bool_decide (r = 0)) else mret false)
    m log (Ok ok m2) ∧ (length log ≤ 1)%nat ∧ (m2 = m ∨ ∃ ws ws', m !! t = Some (Tape ws) ∧ m2 = <[t := Tape ws']> m)).
  { destruct (decide (ix = h)).
    - inv_bind Hok d' m3 Hd'. assert (m3 = m) as -> by (unfold load in Hd'; repeat case_match; by simplify_eq).
      inv_bind Hok r m3 Hr'. injection Hok as <- <-. exists ([AWord (f_data i)] ++ [] ++ []). split; [|split; [done|right; by eapply looks_cmp]].
      eapply lg_bind; [exact (lg_load' _ _ _ _ Hd')|]. eapply lg_bind; [exact (lg_cmp' _ _ _ _ _ _ _ Hr')|apply lg_ret].
    - injection Hok as <- <-. exists []. split; [apply lg_ret|]. split; [simpl; lia|by left]. }
  destruct Hcmp as (log2 & Hl2 & Hn2 & Hm2). destruct (decide (ok = true)).
  - destruct (Hfound _ _ _ _ Hr) as (log3 & H3 & H4). exists ([AWord (f_index i)] ++ log2 ++ log3). split; [|rewrite !app_length; cbn [length]; lia].
    eapply lg_bind; [exact (lg_load' _ _ _ _ Hix)|]. eapply lg_bind; [exact Hl2|]. by rewrite decide_True.
  - assert (Hys' : list_walk n j m2 = Ok ys m2).
    { destruct Hm2 as [->|(ws & ws' & Ht & ->)].
      - destruct (list_walk n j m) as [? ?| | |] eqn:E; [|done..]. injection Hys as -> <-. done.
      - by destruct (walk_tape _ _ _ _ ws' _ _ _ Ht Hys). }
    assert (Hj2 : load (f_next i) m2 = Ok j m2).
    { destruct Hm2 as [->|(ws & ws' & Ht & ->)]; [done|]. exact (load_tape _ _ _ _ ws' _ _ Ht Hj). }
    inv_bind Hr j' m3 Hj'. rewrite Hj2 in Hj'. injection Hj' as <- <-.
    destruct (IH _ _ _ _ _ _ Hys' Hr) as (log3 & H3 & H4).
    exists ([AWord (f_index i)] ++ log2 ++ [AWord (f_next i)] ++ log3). split; [|rewrite !app_length; cbn [length]; lia].
    eapply lg_bind; [exact (lg_load' _ _ _ _ Hix)|]. eapply lg_bind; [exact Hl2|]. rewrite decide_False //.
    eapply lg_bind; [exact (lg_load' _ _ _ _ Hj2)|]. done.
Qed.

Lemma search_walk f t a h n : only_looks f →
  ∀ fuel i xs m v m', list_walk n i m = Ok xs m → bucket_search fuel (tape_cmp t (λ _, f)) a h i m = Ok v m' →
  ∃ log, logged (bucket_search fuel (tape_cmp t (λ _, f)) a h i) m log (Ok v m') ∧
    Z.of_nat (length log) ≤ 3 * Z.of_nat (length xs).
Proof.
  intros Hf. induction n as [|n IH]; intros fuel i xs m v m' Hw Hr.
  { destruct fuel; cbn [list_walk bucket_search] in *; destruct (decide (i = null)); try done;
      injection Hw as <-; injection Hr as <- <-; exists []; (split; [apply lg_ret|cbn; lia]). }
  cbn [list_walk] in Hw. destruct (decide (i = null)) as [Hi|Hi].
  { destruct fuel; cbn [bucket_search] in *; rewrite ?(decide_True _ _ Hi) in Hr |- *;
      injection Hw as <-; injection Hr as <- <-; exists []; (split; [apply lg_ret|cbn; lia]). }
  destruct fuel as [|fuel]; cbn [bucket_search] in *; rewrite (decide_False _ _ Hi) in Hr |- *; [done|].
  inv_bind Hw d m1 Hd. assert (m1 = m) as -> by (unfold load in Hd; repeat case_match; by simplify_eq).
  inv_bind Hw j m1 Hj. assert (m1 = m) as -> by (unfold load in Hj; repeat case_match; by simplify_eq).
  inv_bind Hw ys m1 Hys. injection Hw as <- ->.
  inv_bind Hr ix m2 Hix. assert (m2 = m) as -> by (unfold load in Hix; repeat case_match; by simplify_eq).
  inv_bind Hr ok m2 Hok.
  assert (Hcmp : ∃ log, logged (if decide (ix = h) then data ← load (f_data i); r ← tape_cmp t (λ _, f) a data; mret (bool_decide (r = 0)) else mret false)
    m log (Ok ok m2) ∧ (length log ≤ 1)%nat ∧ (m2 = m ∨ ∃ ws ws', m !! t = Some (Tape ws) ∧ m2 = <[t := Tape ws']> m)).
  { destruct (decide (ix = h)).
    - inv_bind Hok d' m3 Hd'. assert (m3 = m) as -> by (unfold load in Hd'; repeat case_match; by simplify_eq).
      inv_bind Hok r m3 Hr'. injection Hok as <- <-. exists ([AWord (f_data i)] ++ [] ++ []). split; [|split; [done|right; by eapply looks_cmp]].
      eapply lg_bind; [exact (lg_load' _ _ _ _ Hd')|]. eapply lg_bind; [exact (lg_cmp' _ _ _ _ _ _ _ Hr')|apply lg_ret].
    - injection Hok as <- <-. exists []. split; [apply lg_ret|]. split; [simpl; lia|by left]. }
  destruct Hcmp as (log2 & Hl2 & Hn2 & Hm2). destruct (decide (ok = true)).
  - exists ([AWord (f_index i)] ++ log2 ++ [AWord (f_data i)]). split; [|rewrite !app_length; cbn [length]; lia].
    eapply lg_bind; [exact (lg_load' _ _ _ _ Hix)|]. eapply lg_bind; [exact Hl2|]. rewrite decide_True //. exact (lg_load' _ _ _ _ Hr).
  - assert (Hys' : list_walk n j m2 = Ok ys m2).
    { destruct Hm2 as [->|(ws & ws' & Ht & ->)].
      - destruct (list_walk n j m) as [? ?| | |] eqn:E; [|done..]. injection Hys as -> <-. done.
      - by destruct (walk_tape _ _ _ _ ws' _ _ _ Ht Hys). }
    assert (Hj2 : load (f_next i) m2 = Ok j m2).
    { destruct Hm2 as [->|(ws & ws' & Ht & ->)]; [done|]. exact (load_tape _ _ _ _ ws' _ _ Ht Hj). }
    inv_bind Hr j' m3 Hj'. rewrite Hj2 in Hj'. injection Hj' as <- <-.
    destruct (IH _ _ _ _ _ _ Hys' Hr) as (log3 & H3 & H4).
    exists ([AWord (f_index i)] ++ log2 ++ [AWord (f_next i)] ++ log3). split; [|rewrite !app_length; cbn [length]; lia].
    eapply lg_bind; [exact (lg_load' _ _ _ _ Hix)|]. eapply lg_bind; [exact Hl2|]. rewrite decide_False //.
    eapply lg_bind; [exact (lg_load' _ _ _ _ Hj2)|]. done.
Qed.


(** ** The dynamic table *)
Global Hint Resolve am_head am_tail_ne am_first am_insert_tail am_remove am_concat am_malloc : am.
Lemma ct_reinsert fuel : ∀ nb mask j, counted 9 0 (hashdyn_reinsert fuel nb mask j) (hashdyn_reinsert_w fuel nb mask j).
Proof.
  induction fuel as [|fuel IH]; intros nb mask j; cbn [hashdyn_reinsert hashdyn_reinsert_w]; (destruct (decide (j = null)); [apply ct_ret; lia|]).
  - apply ct_fuel.
  - ct. ct. ct. eapply (ct_step _ _ 6); [am|intros _]. eapply (ct_tail _ _ 0 _ _ (λ r, 1 + r.2)); [apply IH|]. intros ? ?. cbn [snd]. lia.
Qed.
Lemma ct_grow_loop fuel n : ∀ b bm nb mask i,
  counted 9 (3 * Z.of_nat n) (hashdyn_grow_loop fuel n b bm nb mask i) (hashdyn_grow_loop_w fuel n b bm nb mask i).
Proof.
  induction n as [|n IH]; intros b bm nb mask i; cbn [hashdyn_grow_loop hashdyn_grow_loop_w]; [apply ct_ret; lia|].
  ct. ct. ct. eapply ct_bind; [apply ct_reinsert|]. intros [] y. cbn [snd].
  eapply (ct_tail _ _ (3 * Z.of_nat n) _ _ (λ r, y + r.2)); [apply IH|]. intros ? ?. cbn [snd]. lia.
Qed.
Lemma am_shrink_loop n : ∀ b nb nm i, at_most (9 * n) (hashdyn_shrink_loop n b nb nm i).
Proof.
  induction n as [|n IH]; intros b nb nm i; cbn [hashdyn_shrink_loop]; [apply am_ret|].
  eapply am_le; [eapply am_bind; [apply am_load|intros ?]; eapply am_bind; [apply am_store|intros _];
    eapply am_bind; [apply am_concat|intros _]; apply IH|lia].
Qed.
Lemma ct_grow fuel st : counted 9 (3 * Z.of_nat (Z.to_nat (hd_bucket_max st)))
  (hashdyn_resize fuel st (hd_bucket_bit st + 1)) (hashdyn_resize_w fuel st (hd_bucket_bit st + 1)).
Proof.
  unfold hashdyn_resize, hashdyn_resize_w. destruct (decide (64 ≤ hd_bucket_bit st + 1)).
  { intros m. exists []. split; [apply lg_ub|done]. }
  ct. rewrite !(decide_True (P := hd_bucket_bit st < hd_bucket_bit st + 1)); [|lia..].
  eapply ct_bind; [apply ct_grow_loop|]. intros [] x. cbn [snd]. ct. apply ct_ret. lia.
Qed.
Lemma am_shrink fuel st : at_most (9 * Z.to_nat (shl64 1 (hd_bucket_bit st - 1))) (hashdyn_resize fuel st (hd_bucket_bit st - 1)).
Proof.
  unfold hashdyn_resize. destruct (decide (64 ≤ hd_bucket_bit st - 1)); [eapply am_le; [apply am_ub|lia]|].
  eapply am_le; [eapply am_bind; [apply am_malloc|intros ?]; rewrite decide_False; [|lia]; eapply am_bind; [apply am_shrink_loop|intros _];
    eapply am_bind; [apply am_free|intros _; apply am_ret]|lia].
Qed.

(** an insert that links [x] elements again *)
Lemma ct_hd_insert fuel st p d h : counted 9
  (9 + if decide (hd_bucket_max st / 2 ≤ wrap (hd_count st + 1)) then 3 * Z.of_nat (Z.to_nat (hd_bucket_max st)) else 0)
  (hashdyn_insert fuel st p d h) (hashdyn_insert_w fuel st p d h).
Proof.
  unfold hashdyn_insert, hashdyn_insert_w. ct. ct. unfold hashdyn_grow_step, hashdyn_grow_step_w. cbn [hd_set_count hd_bucket_max hd_count].
  destruct (decide _).
  - eapply ct_le; [apply (ct_grow fuel (hd_set_count st _))|]. cbn [hd_set_count hd_bucket_max]. lia.
  - apply ct_ret. lia.
Qed.

Lemma hd_resize_max fuel st bit m st' m' : hashdyn_resize fuel st bit m = Ok st' m' → hd_bucket_max st' = shl64 1 bit ∧ hd_count st' = hd_count st.
Proof.
  intros Hr. rewrite /hashdyn_resize in Hr. case_decide; [done|]. inv_bind Hr nb m1 H1. inv_bind Hr u m2 H2.
  inv_bind Hr u' m3 H3. by injection Hr as <- <-.
Qed.

Lemma lg_at_most {A} n (c : M A) m v m' : at_most n c → c m = Ok v m' → ∃ log, logged c m log (Ok v m') ∧ (length log ≤ n)%nat.
Proof. intros Hc <-. apply Hc. Qed.

Lemma shl64_pow' k : 0 ≤ k ≤ 61 → shl64 1 k = 2 ^ k.
Proof.
  intros Hk. rewrite /shl64 Z.shiftl_1_l. apply Z.mod_small. split; [apply Z.pow_nonneg; lia|].
  apply Z.pow_lt_mono_r; lia.
Qed.

Lemma hd_insert_accesses fuel st n n' p d h m st' x m' : hashdyn_inv st n → hashdyn_inv st' n' →
  hashdyn_insert fuel st p d h m = Ok st' m' → hashdyn_insert_w fuel st p d h m = Ok (st', x) m' → x ≤ hd_count st' →
  ∃ log, logged (hashdyn_insert fuel st p d h) m log (Ok st' m') ∧ Z.of_nat (length log) ≤ 9 + 9 * hd_work st st'.
Proof.
  intros Hi Hi' Hr Hw Hx. assert (0 ≤ hd_count st') as Hc' by (destruct Hi' as (_ & _ & _ & _ & _ & ->); lia).
  assert (0 ≤ hd_work st st') as Hpos by (unfold hd_work; case_decide; lia).
  destruct Hi as ((k & Hk & HM & Hb) & _).
  destruct (decide (hd_bucket_max st / 2 ≤ wrap (hd_count st + 1))) as [Hg|Hg].
  - assert (hd_bucket_max st' = 2 * hd_bucket_max st) as HM'.
    { unfold hashdyn_insert in Hr. inv_bind Hr u m1 E1. inv_bind Hr u2 m2 E2. unfold hashdyn_grow_step in Hr.
      rewrite decide_True // in Hr. apply hd_resize_max in Hr as [-> _]. cbn [hd_set_count hd_bucket_bit].
      rewrite Hb HM shl64_pow'; [|lia]. rewrite Z.pow_add_r; lia. }
    pose proof (pow2_small k ltac:(lia)).
    destruct (ct_hd_insert fuel st p d h m) as (log & H1 & H2). destruct (H2 _ _ Hr) as (y & H3 & H4).
    rewrite Hw in H3. injection H3 as <-. rewrite Hr in H1. exists log. split; [done|].
    rewrite decide_True // in H4. unfold hd_work. rewrite decide_True; lia.
  - assert (Ham : at_most 9 (list_insert_tail (hashdyn_ref st (Z.land h (hd_bucket_mask st))) p d;; store (f_index p) h;;
      mret (hd_set_count st (wrap (hd_count st + 1))))) by am.
    assert (Heq : hashdyn_insert fuel st p d h = (list_insert_tail (hashdyn_ref st (Z.land h (hd_bucket_mask st))) p d;; store (f_index p) h;;
      mret (hd_set_count st (wrap (hd_count st + 1))))).
    { unfold hashdyn_insert, hashdyn_grow_step. cbn [hd_set_count hd_bucket_max hd_count]. by rewrite decide_False. }
    rewrite Heq in Hr |- *. destruct (lg_at_most _ _ _ _ _ Ham Hr) as (log & H1 & H2). exists log. split; [done|lia].
Qed.

Lemma hd_shrink_accesses fuel st n c m st' m' : hashdyn_inv st n →
  hashdyn_shrink_step fuel (hd_set_count st c) m = Ok st' m' →
  ∃ log, logged (hashdyn_shrink_step fuel (hd_set_count st c)) m log (Ok st' m') ∧ Z.of_nat (length log) ≤ 9 * hd_work st st'.
Proof.
  intros ((k & Hk & HM & Hb) & _). pose proof (pow2_small k ltac:(lia)). unfold hashdyn_shrink_step.
  cbn [hd_set_count hd_bucket_max hd_count hd_bucket_bit]. case_decide as Hd; intros Hr.
  - destruct Hd as [_ Hd]. destruct (lg_at_most _ _ _ _ _ (am_shrink fuel (hd_set_count st c)) Hr) as (log & H1 & H2). exists log. split; [done|].
    apply hd_resize_max in Hr as [Hr _]. cbn [hd_set_count hd_bucket_bit] in *. rewrite Hb shl64_pow' in Hr, H2; [|lia..].
    assert (2 ^ k = 2 * 2 ^ (k - 1)) by (rewrite -{1}(Z.sub_add 1 k) Z.pow_add_r; lia).
    unfold hd_work. rewrite Hr HM decide_False; lia.
  - injection Hr as <- <-. exists []. split; [apply lg_ret|]. unfold hd_work. cbn. rewrite decide_False; lia.
Qed.

Lemma hd_found_accesses fuel st n l p m r m' : hashdyn_inv st n →
  (list_remove_existing l p;; t ← hashdyn_shrink_step fuel (hd_set_count st (sub64 (hd_count st) 1)); data ← load (f_data p); mret (t, data)) m = Ok r m' →
  ∃ log, logged (list_remove_existing l p;; t ← hashdyn_shrink_step fuel (hd_set_count st (sub64 (hd_count st) 1)); data ← load (f_data p); mret (t, data))
    m log (Ok r m') ∧ Z.of_nat (length log) ≤ 9 + 9 * hd_work st r.1.
Proof.
  intros Hi Hr. inv_bind Hr u m1 E1. inv_bind Hr st' m2 E2. inv_bind Hr d m3 E3. injection Hr as <- <-.
  destruct (lg_at_most _ _ _ _ _ (am_remove _ _) E1) as (l1 & H1 & H2). destruct (hd_shrink_accesses _ _ _ _ _ _ _ Hi E2) as (l2 & H3 & H4).
  exists (l1 ++ l2 ++ [AWord (f_data p)] ++ []). split.
  - eapply lg_bind; [exact H1|]. eapply lg_bind; [exact H3|]. eapply lg_bind; [exact (lg_load' _ _ _ _ E3)|apply lg_ret].
  - rewrite !app_length. cbn [length fst]. lia.
Qed.
Lemma hd_remove_existing_accesses fuel st n p m r m' : hashdyn_inv st n →
  hashdyn_remove_existing fuel st p m = Ok r m' →
  ∃ log, logged (hashdyn_remove_existing fuel st p) m log (Ok r m') ∧ Z.of_nat (length log) ≤ 10 + 9 * hd_work st r.1.
Proof.
  intros Hi Hr. unfold hashdyn_remove_existing in *. inv_bind Hr i m1 E1.
  destruct (hd_found_accesses _ _ _ _ _ _ _ _ Hi Hr) as (l1 & H1 & H2). exists ([AWord (f_index p)] ++ l1). split.
  - eapply lg_bind; [exact (lg_load' _ _ _ _ E1)|exact H1].
  - rewrite app_length. cbn [length]. lia.
Qed.

Lemma am_hd_init : at_most 0 hashdyn_init.
Proof.
  unfold hashdyn_init, calloc_words. change 0%nat with (0 + 0)%nat. eapply am_bind; [|intros ?; apply am_ret].
  change 0%nat with (0 `max` 0)%nat. apply am_if; am_prim.
Qed.

(** the nodes of the bucket of [h] *)
Lemma hd_remove_accesses fuel k st n f t a h xs m r m' : hashdyn_inv st n → only_looks f →
  (i ← hashdyn_bucket st h; list_walk k i) m = Ok xs m →
  hashdyn_remove fuel st (tape_cmp t (λ _, f)) a h m = Ok r m' →
  ∃ log, logged (hashdyn_remove fuel st (tape_cmp t (λ _, f)) a h) m log (Ok r m') ∧
    Z.of_nat (length log) ≤ 10 + 3 * Z.of_nat (length xs) + 9 * hd_work st r.1.
Proof.
  intros Hi Hf Hw Hr. unfold hashdyn_bucket, hashdyn_remove in *. inv_bind Hw i m1 E1.
  assert (m1 = m) as -> by (unfold load in E1; repeat case_match; by simplify_eq).
  inv_bind Hr j m1 E2. rewrite E1 in E2. injection E2 as <- <-.
  assert (Hnf : ∀ m v m', (mret (st, 0) : M (hashdyn * Z)) m = Ok v m' → ∃ log, logged (mret (st, 0)) m log (Ok v m') ∧
    Z.of_nat (length log) ≤ 9 + 9 * hd_work st v.1).
  { intros m0 v m0' [= <- <-]. exists []. split; [apply lg_ret|]. cbn. rewrite hd_work_same. lia. }
  destruct (remove_walk f t a h _ _ (λ r : hashdyn * Z, 9 + 9 * hd_work st r.1) _ Hf
    (λ p m v m', hd_found_accesses fuel st n (hashdyn_ref st (Z.land h (hd_bucket_mask st))) p m v m' Hi) Hnf _ _ _ _ _ _ Hw Hr) as (l1 & H1 & H2).
  exists ([AWord (hashdyn_ref st (Z.land h (hd_bucket_mask st)))] ++ l1). split.
  - eapply lg_bind; [exact (lg_load' _ _ _ _ E1)|exact H1].
  - rewrite app_length. cbn [length]. lia.
Qed.

(** ** Searching *)
Lemma hd_search_accesses fuel k st f t a h xs m r m' : only_looks f →
  (i ← hashdyn_bucket st h; list_walk k i) m = Ok xs m →
  hashdyn_search fuel st (tape_cmp t (λ _, f)) a h m = Ok r m' →
  ∃ log, logged (hashdyn_search fuel st (tape_cmp t (λ _, f)) a h) m log (Ok r m') ∧
    Z.of_nat (length log) ≤ 1 + 3 * Z.of_nat (length xs).
Proof.
  intros Hf Hw Hr. unfold hashdyn_search in *. inv_bind Hw i m1 E1.
  assert (m1 = m) as -> by (unfold hashdyn_bucket, load in E1; repeat case_match; by simplify_eq).
  inv_bind Hr j m1 E2. rewrite E1 in E2. injection E2 as <- <-.
  destruct (search_walk f t a h _ Hf _ _ _ _ _ _ Hw Hr) as (l1 & H1 & H2).
  destruct (lg_at_most _ _ _ _ _ (am_hd_bucket st h) E1) as (l0 & H3 & H4).
  exists (l0 ++ l1). split; [by eapply lg_bind|]. rewrite app_length. lia.
Qed.

(** ** In a history *)

(** The table with an insert that stops if more elements are linked again than there are. *)
Definition hashdyn_insert_a (fuel : nat) (st : hashdyn) (p d h : Z) : M hashdyn :=
  r ← hashdyn_insert_w fuel st p d h; massert (bool_decide (r.2 ≤ hd_count r.1));; mret r.1.
Definition hashdyn_table_a : table :=
  Table hashdyn (λ _, hashdyn_init) hashdyn_done hashdyn_insert_a hashdyn_remove
    hashdyn_remove_existing hashdyn_search hashdyn_bucket hashdyn_count
    hashdyn_foreach hashdyn_foreach_arg hashdyn_memory_usage
    (λ st h, h mod hd_bucket_max st).

Section asserted.
  Context `{!memG} (t : Z).
  Definition hd_proof_a : memG_env → table_proof hashdyn_table_a hashdyn_inv t.
  Proof.
    intros Henv. refine (TableProof hashdyn_table_a hashdyn_inv _ t hd_rep hd_shell hd_shell_of hd_rep_inv _ wp_hd_done
      _ _ _ (wp_hd_search t) wp_hd_bucket wp_hd_foreach_ro wp_hd_foreach _
      hd_visits hd_chains hd_blocks hd_memory).
    - intros. by apply wp_hd_init.
    - intros fuel st es p d h cl Φ Hf Hw. iIntros "HR Hp HΦ". cbn [hashdyn_table_a tb_insert tb_st]. unfold hashdyn_insert_a. wp_bind.
      iApply (wp_hd_insert_w with "HR Hp"); [done..|]. iIntros (st' x Hx) "(%int & %Hd & HR & Hc)". iDestruct (hd_rep_inv with "HR") as %(_ & Hcount & _).
      rewrite app_length in Hcount. cbn [fst snd length] in *. wp_assert; [apply bool_decide_eq_true; lia|]. wp_ret.
      iApply "HΦ". iExists int. by iFrame.
    - intros. by apply (wp_hd_remove t).
    - intros. by apply wp_hd_remove_existing.
    - done.
  Defined.
End asserted.

Lemma hashdyn_history_a om K t live m fuel c :
  table_start om K t live m → (size om ≤ fuel)%nat →
  allowed (tpre om K) tpost (tstate0 om live) c →
  safe (run (tstep hashdyn_table_a fuel t) None c m) (λ _ _, True).
Proof.
  intros Hs Hf Ha. pose proof (table_history hashdyn_table_a hashdyn_inv om K t live m fuel c) as H.
  unfold safe in *. assert (H' := H ltac:(intros; by apply hd_proof_a) Hs Hf Ha).
  by destruct (run (tstep hashdyn_table_a fuel t) None c m).
Qed.

(** the last step of a history, and its check *)
Lemma run_last_check {op out cst} (step step' : cst → op → M (cst * out))
  (Hstep : ∀ cs o m r m', step cs o m = Ok r m' → step' cs o m = Ok r m' ∨ step' cs o m = UB) n : ∀ c cs m cs1 tr m1 cs2 o a m2,
  run step cs (trunc n c) m = Ok (cs1, tr) m1 → run step cs (trunc (S n) c) m = Ok (cs2, tr ++ [(o, a)]) m2 →
  run step' cs (trunc (S n) c) m ≠ UB →
  step cs1 o m1 = Ok (cs2, a) m2 ∧ step' cs1 o m1 = Ok (cs2, a) m2.
Proof.
  induction n as [|n IH]; intros c cs m cs1 tr m1 cs2 o a m2.
  - cbn [trunc run]. intros [= <- <- <-]. destruct c as [|o' k]; [done|]. cbn [trunc run]. unfold mbind, M_bind.
    destruct (step cs o' m) as [[cs' a'] m'| | |] eqn:E; [|done..]. cbn [fst snd]. intros [= <- <- <- <-].
    destruct (Hstep _ _ _ _ _ E) as [->| ->]; [|done]. done.
  - destruct c as [|o' k].
    + cbn. intros [= <- <- <-]. by intros [= ].
    + change (trunc (S n) (Do o' k)) with (Do o' (λ a, trunc n (k a))).
      change (trunc (S (S n)) (Do o' k)) with (Do o' (λ a, trunc (S n) (k a))).
      cbn [run]. unfold mbind, M_bind.
      destruct (step cs o' m) as [[cs' a'] m'| | |] eqn:E; [|done..]. cbn [fst snd].
      destruct (run step cs' (trunc n (k a')) m') as [[cs1' tr1] m1'| | |] eqn:E1; [|done..].
      cbn [fst snd]. intros [= <- <- <-].
      destruct (run step cs' (trunc (S n) (k a')) m') as [[cs2' tr2] m2'| | |] eqn:E2; [|done..].
      cbn [fst snd]. intros [= <- -> <-]. destruct (Hstep _ _ _ _ _ E) as [->| ->]; [|done]. cbn [fst snd].
      intros Hub. apply (IH _ _ _ _ _ _ _ _ _ _ E1 E2). intros E3. by rewrite E3 in Hub.
Qed.

Lemma tstep_a fuel t cs o m r m' : tstep hashdyn_table fuel t cs o m = Ok r m' →
  tstep hashdyn_table_a fuel t cs o m = Ok r m' ∨ tstep hashdyn_table_a fuel t cs o m = UB.
Proof.
  destruct o; try by left. destruct cs as [st|]; [|by left]. cbn [tstep hashdyn_table hashdyn_table_a tb_insert tb_st].
  intros Hr. inv_bind Hr st' m1 E1. injection Hr as <- <-. destruct (ct_hd_insert fuel st p d h m) as (log & _ & H2).
  destruct (H2 _ _ E1) as (x & Hx & _). unfold hashdyn_insert_a, mbind, M_bind. rewrite Hx. unfold massert. cbn [fst snd].
  destruct (bool_decide _); [by left|by right].
Qed.

Lemma every_trunc {op out} (P : op → Prop) n (c : prog op out) : every P c → every P (trunc n c).
Proof. revert c. induction n as [|n IH]; intros [|o k]; try done. intros [H1 H2]. split; [done|]. intros a. by apply IH. Qed.
Lemma run_every {op out cst} (step : cst → op → M (cst * out)) (P : op → Prop) c : ∀ cs m cs' tr m',
  every P c → run step cs c m = Ok (cs', tr) m' → Forall (λ x, P x.1) tr.
Proof.
  induction c as [|o k IH]; intros cs m cs' tr m' He; cbn [run]; [by intros [= <- <- <-]|].
  destruct He as [He1 He2]. intros Hr. inv_bind Hr r m1 E1. inv_bind Hr r2 m2 E2. injection Hr as <- <- <-. constructor; [done|].
  destruct r2 as [? ?]. eapply IH; [apply He2|exact E2].
Qed.

Lemma hd_step_accesses om K t live m fuel n c cs tr m1 cs2 o a m2 :
  table_start om K t live m → (size om ≤ fuel)%nat → allowed (tpre om K) tpost (tstate0 om live) c → every tlooks c → no_visit o →
  run (tstep hashdyn_table fuel t) None (trunc n c) m = Ok (cs, tr) m1 →
  run (tstep hashdyn_table fuel t) None (trunc (S n) c) m = Ok (cs2, tr ++ [(o, a)]) m2 →
  ∃ log, logged (tstep hashdyn_table fuel t cs o) m1 log (Ok (cs2, a) m2) ∧
    hashdyn_within om live tr cs cs2 o (Z.of_nat (length log)).
Proof.
  intros Hs Hf Ha Hl Hnv H1 H2.
  assert (Hub : run (tstep hashdyn_table_a fuel t) None (trunc (S n) c) m ≠ UB).
  { pose proof (hashdyn_history_a om K t live m fuel (trunc (S n) c) Hs Hf (trunc_allowed _ _ _ _ _ Ha)) as H. intros E. by rewrite E in H. }
  destruct (run_last_check _ _ (tstep_a fuel t) _ _ _ _ _ _ _ _ _ _ _ H1 H2 Hub) as [H3 H4].
  assert (Hlook : tlooks o).
  { pose proof (run_every _ _ _ _ _ _ _ _ (every_trunc _ (S n) _ Hl) H2) as H. apply Forall_app in H as [_ H]. by apply Forall_cons in H as [? _]. }
  pose proof (hashdyn_history om K t live m fuel (trunc n c) Hs Hf (trunc_allowed _ _ _ _ _ Ha)) as He1. rewrite H1 in He1.
  destruct He1 as [(s & int & Hc & _ & _ & Htab) _].
  pose proof (hashdyn_history om K t live m fuel (trunc (S n) c) Hs Hf (trunc_allowed _ _ _ _ _ Ha)) as He2. rewrite H2 in He2.
  destruct He2 as [(s' & int' & Hc' & _ & _ & Htab') _]. cbn [fst snd] in *.
  assert (Hpre : tpre om K s o).
  { destruct (run_all_ok _ _ _ _ _ _ H2) as (l & Hl2 & [= _ Heq]). destruct l as [|[[o' a'] cs'] l _] using rev_ind; [by destruct tr|].
    rewrite fmap_app in Heq. apply app_inj_2 in Heq as [Heq [= -> ->]]; [|done].
    eapply (run_all_pre _ _ _ _ _ _ _ _ l o' a' cs' []); [exact Hl2|done|exact (trunc_allowed _ _ (S n) _ _ Ha)|]. by rewrite -Heq. }
  apply correct_app in Hc' as (s1 & Hc1 & Hc2). inversion Hc2 as [|? ? ? s2 ? ? Hpost Hc3]; subst. inversion Hc3; subst. clear Hc2 Hc3.
  unfold tstep in H3, H4 |- *.
  assert (Hwalk : ∀ st es h, word h → chains hashdyn_table st es m1 → ∃ nodes, (i ← hashdyn_bucket st h; list_walk (length nodes) i) m1 = Ok nodes m1 ∧
    Z.of_nat (length nodes) = same_bucket st es h).
  { intros st es h Hw Hch. destruct (Hch h Hw) as (i & xs & Hb & Hp & _ & Hx). exists ((λ e, (en_p e, en_d e)) <$> xs).
    rewrite fmap_length. split; [|unfold same_bucket; by rewrite (Permutation_length Hp)].
    unfold mbind, M_bind. cbn [hashdyn_table tb_bucket] in Hb. rewrite Hb. by apply Hx. }
  assert (Hcont : ∀ es, ts_tab s = TabEs es → content om live tr es) by (intros es Hes; by exists s).
  destruct o as [k|p d h|f g arg h|p|f g arg h|h| | |arg| |]; cbn [tpre] in Hpre; cbn [hashdyn_within].
  - destruct cs as [st|]; cbn in H3; inv_bind H3 st' m3 E; injection H3 as <- <- <-.
    + destruct (lg_at_most 0 _ _ _ _ (am_hd_init) E) as (l & L1 & L2). exists (l ++ []). split; [eapply lg_bind; [exact L1|apply lg_ret]|].
      rewrite app_nil_r. destruct l; [done|cbn in L2; lia].
    + destruct (lg_at_most 0 _ _ _ _ (am_hd_init) E) as (l & L1 & L2). exists (l ++ []). split; [eapply lg_bind; [exact L1|apply lg_ret]|].
      rewrite app_nil_r. destruct l; [done|cbn in L2; lia].
  - destruct Hpre as (_ & (es & Ht) & _). rewrite Ht in Htab. destruct Htab as (st & -> & Hinv & _).
    cbn [hashdyn_table hashdyn_table_a tb_insert tb_st] in *. inv_bind H3 st' m5 E. injection H3 as <- <- <-.
    destruct Hpost as (es1 & Ht1 & _ & ->). destruct Htab' as (st'' & [= <-] & Hinv' & _).
    inv_bind H4 st2 m6 E'. injection H4 as -> ->. unfold hashdyn_insert_a in E'. inv_bind E' r m7 E2. inv_bind E' u m8 E3.
    injection E' as <- <-. unfold massert in E3. destruct (bool_decide _) eqn:Ed; [|done]. injection E3 as _ ->. apply bool_decide_eq_true in Ed.
    destruct r as [st2 x]. cbn [fst snd] in *. destruct (hd_insert_accesses _ _ _ _ _ _ _ _ _ _ _ Hinv Hinv' E E2 Ed) as (l & L1 & L2).
    exists (l ++ []). split; [eapply lg_bind; [exact L1|apply lg_ret]|]. rewrite app_nil_r. exact L2.
  - destruct Hpre as ((es & Ht & _) & Hw). rewrite Ht in Htab. destruct Htab as (st & -> & Hinv & _ & _ & Hch).
    cbn [hashdyn_table tb_remove tb_st] in *. inv_bind H3 r m5 E5. inv_bind H3 cl m6 E6. injection H3 as <- <- <-.
    destruct (Hwalk _ _ _ Hw Hch) as (nodes & Hn & Hlen).
    destruct (hd_remove_accesses _ _ _ _ _ _ _ _ _ _ _ _ Hinv Hlook Hn E5) as (l & L1 & L2).
    exists (l ++ [] ++ []). split; [eapply lg_bind; [exact L1|eapply lg_bind; [exact (lg_take' _ _ _ _ E6)|apply lg_ret]]|].
    rewrite !app_nil_r. exists st, es. split; [done|]. split; [by apply Hcont|]. cbn [hd_op_work]. lia.
  - destruct Hpre as (es & Ht & _). rewrite Ht in Htab. destruct Htab as (st & -> & Hinv & _).
    cbn [hashdyn_table tb_remove_existing tb_st] in *. inv_bind H3 r m5 E5. injection H3 as <- <- <-.
    destruct (hd_remove_existing_accesses _ _ _ _ _ _ _ Hinv E5) as (l & L1 & L2).
    exists (l ++ []). split; [eapply lg_bind; [exact L1|apply lg_ret]|]. rewrite app_nil_r. exact L2.
  - destruct Hpre as ((es & Ht & _) & Hw). rewrite Ht in Htab. destruct Htab as (st & -> & Hinv & _ & _ & Hch).
    cbn [hashdyn_table tb_search tb_st] in *. inv_bind H3 r m5 E5. inv_bind H3 cl m6 E6. injection H3 as <- <- <-.
    destruct (Hwalk _ _ _ Hw Hch) as (nodes & Hn & Hlen).
    destruct (hd_search_accesses _ _ _ _ _ _ _ _ _ _ _ Hlook Hn E5) as (l & L1 & L2).
    exists (l ++ [] ++ []). split; [eapply lg_bind; [exact L1|eapply lg_bind; [exact (lg_take' _ _ _ _ E6)|apply lg_ret]]|].
    rewrite !app_nil_r. exists st, es. split; [done|]. split; [by apply Hcont|]. lia.
  - destruct Hpre as ((es & Ht) & Hw). rewrite Ht in Htab. destruct Htab as (st & -> & Hinv & _ & _ & Hch).
    cbn [hashdyn_table tb_bucket tb_st] in *. inv_bind H3 i m5 E5. inv_bind H3 r m6 E6. injection H3 as <- <- <-.
    destruct (Hwalk _ _ _ Hw Hch) as (nodes & Hn & Hlen). inv_bind Hn i' m7 E7. rewrite E5 in E7. injection E7 as <- <-.
    assert (m5 = m1) as -> by (unfold hashdyn_bucket, load in E5; repeat case_match; by simplify_eq).
    pose proof (walk_same _ _ _ _ _ _ _ _ Hn E6) as <-. destruct (walk_log _ _ _ _ _ E6) as (l & L1 & L2).
    destruct (lg_at_most _ _ _ _ _ (am_hd_bucket st h) E5) as (l0 & L3 & L4).
    exists (l0 ++ l ++ []). split; [eapply lg_bind; [exact L3|eapply lg_bind; [exact L1|apply lg_ret]]|].
    exists st, es. split; [done|]. split; [by apply Hcont|]. rewrite app_nil_r app_length. lia.
  - destruct cs as [st|]; [|done]. injection H3 as <- <- <-. exists []. split; [apply lg_ret|done].
  - done.
  - done.
  - done.
  - destruct cs as [st|]; [|done]. cbn [hashdyn_table tb_done tb_st] in *. inv_bind H3 u m5 E5. injection H3 as <- <- <-.
    exists ([] ++ []). split; [eapply lg_bind; [exact (lg_free' _ _ _ _ E5)|apply lg_ret]|done].
Qed.

(** ** Whole histories *)
Fixpoint sum_over {op out cst} (b : cst → op → cst → Z) (cs : cst) (l : list (op * out * cst)) : Z :=
  match l with [] => 0 | x :: l => b cs x.1.1 x.2 + sum_over b x.2 l end.

Lemma run_logged {op out cst} (step : cst → op → M (cst * out)) (b : cst → op → cst → Z) c : ∀ cs m l m',
  (∀ n cs1 tr m1 cs2 o a m2, run step cs (trunc n c) m = Ok (cs1, tr) m1 → run step cs (trunc (S n) c) m = Ok (cs2, tr ++ [(o, a)]) m2 →
    ∃ log, logged (step cs1 o) m1 log (Ok (cs2, a) m2) ∧ Z.of_nat (length log) ≤ b cs1 o cs2) →
  run_all step cs c m = Ok l m' →
  ∃ log, logged (run step cs c) m log (Ok (struct_after cs l, l.*1) m') ∧ Z.of_nat (length log) ≤ sum_over b cs l.
Proof.
  induction c as [|o k IH]; intros cs m l m' Hb Hr; cbn [run_all] in Hr.
  - injection Hr as <- <-. exists []. split; [apply lg_ret|done].
  - inv_bind Hr r m1 E1. inv_bind Hr l' m2 E2. injection Hr as <- <-. destruct r as [cs1 a]. cbn [fst snd] in *.
    destruct (Hb 0%nat cs [] m cs1 o a m1) as (log1 & L1 & L2); [done| |].
    { cbn [trunc run]. unfold mbind, M_bind. rewrite E1. done. }
    destruct (IH a cs1 m1 l' m2) as (log2 & L3 & L4); [|done|].
    { intros n cs2 tr m3 cs3 o' a' m4 H1 H2. apply (Hb (S n) cs2 ((o, a) :: tr) m3 cs3 o' a' m4).
      - change (trunc (S n) (Do o k)) with (Do o (λ a, trunc n (k a))). cbn [run]. unfold mbind, M_bind. rewrite E1. cbn [fst snd]. by rewrite H1.
      - change (trunc (S (S n)) (Do o k)) with (Do o (λ a, trunc (S n) (k a))). cbn [run]. unfold mbind, M_bind. rewrite E1. cbn [fst snd]. by rewrite H2. }
    exists (log1 ++ log2 ++ []). split.
    + cbn [run]. eapply lg_bind; [exact L1|]. cbn [fst snd]. eapply lg_bind; [exact L3|]. cbn [fst snd struct_after]. apply lg_ret.
    + rewrite app_nil_r app_length. cbn [sum_over fst snd]. lia.
Qed.

Lemma not_freed s tr s' : correct tpost s tr s' → Forall (λ x, by_node x.1) tr → ts_tab s ≠ TabFreed → ts_tab s' ≠ TabFreed.
Proof.
  induction 1 as [|s o a s1 tr s2 Hp Hc IH]; [done|]. intros [Hb HF]%Forall_cons Hs. apply IH; [done|]. clear IH.
  destruct o; try done; cbn [tpost] in Hp.
  - by destruct Hp as (_ & ->).
  - by destruct Hp as (es & _ & _ & ->).
  - by destruct Hp as (es1 & d & h & es2 & _ & _ & ->).
  - by destruct Hp as (es & _ & _ & ->).
  - by destruct Hp as (_ & ->).
Qed.
Lemma hd_history_accesses om K t live m fuel c :
  table_start om K t live m → (size om ≤ fuel)%nat → allowed (tpre om K) tpost (tstate0 om live) c → every by_node c →
  safe (run (tstep hashdyn_table fuel t) None c m) (λ r m',
    ∃ log, logged (run (tstep hashdyn_table fuel t) None c) m log (Ok r m') ∧ (length log ≤ 64 * length r.2)%nat).
Proof.
  intros Hs Hf Ha Hn. pose proof (hashdyn_amortised om K t live m fuel c Hs Hf Ha) as Ham.
  pose proof (hashdyn_history om K t live m fuel c Hs Hf Ha) as Hh. unfold safe in *.
  destruct (run (tstep hashdyn_table fuel t) None c m) as [r m'| | |] eqn:Er; try done. clear Hh.
  destruct (run_all_ok _ _ _ _ _ _ Er) as (l & Hl & ->). rewrite Hl in Ham.
  destruct (run_logged (tstep hashdyn_table fuel t) (λ cs _ cs', 10 + 9 * hd_op_work cs cs') c None m l m') as (log & L1 & L2); [|done|].
  { intros n cs1 tr m1 cs2 o a m2 H1 H2.
    assert (Ho : by_node o).
    { pose proof (run_every _ _ _ _ _ _ _ _ (every_trunc _ (S n) _ Hn) H2) as H. apply Forall_app in H as [_ H]. by apply Forall_cons in H as [? _]. }
    assert (Hlk : every tlooks c).
    { clear -Hn. induction c as [|o k IH]; [done|]. destruct Hn as [H1 H2]. split; [by destruct o|]. intros a. by apply IH. }
    assert (Hwork : 0 ≤ hd_op_work cs1 cs2).
    { pose proof (hashdyn_history om K t live m fuel (trunc (S n) c) Hs Hf (trunc_allowed _ _ _ _ _ Ha)) as He. rewrite H2 in He.
      destruct He as [(s & int & Hc & _ & _ & Htab) _]. cbn [fst snd] in *.
      assert (ts_tab s ≠ TabFreed) as Hfr.
      { apply (not_freed _ _ _ Hc); [|done]. exact (run_every _ _ _ _ _ _ _ _ (every_trunc _ (S n) _ Hn) H2). }
      destruct (ts_tab s) as [|es|]; [destruct Htab as [-> _]; by destruct cs1| |done]. destruct Htab as (st & -> & (_ & _ & _ & _ & _ & Hcount) & _).
      destruct cs1 as [st1|]; [|done]. cbn [hd_op_work]. unfold hd_work. case_decide; lia. }
    destruct (hd_step_accesses om K t live m fuel n c cs1 tr m1 cs2 o a m2 Hs Hf Ha Hlk ltac:(by destruct o) H1 H2) as (log & L1 & L2).
    exists log. split; [done|]. destruct o; try done; cbn [hashdyn_within] in L2; lia. }
  exists log. split; [done|]. cbn [snd]. rewrite fmap_length.
  assert (Hsum : ∀ cs (l : hd_trace), sum_over (λ cs _ cs', 10 + 9 * hd_op_work cs cs') cs l = 10 * Z.of_nat (length l) + 9 * hd_total_work cs l).
  { clear. intros cs l. revert cs. induction l as [|x l IH]; intros cs; cbn [sum_over hd_total_work length]; [done|]. rewrite IH. lia. }
  assert (hd_updates l ≤ Z.of_nat (length l)) by (unfold hd_updates; apply inj_le, filter_length).
  change (tb_st hashdyn_table) with hashdyn in *. rewrite Hsum in L2. lia.
Qed.
