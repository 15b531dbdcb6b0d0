(** * The amount of resize work done by the linear hashtable *)
From Verif Require Export HashLinProof RunAll.
Global Open Scope Z_scope.

(** Number of valid buckets.  Each iteration of the loops of hashlin_grow_step
    and hashlin_shrink_step splits or merges one bucket and changes this number
    by one; one operation runs only one of the two loops. *)
Definition hl_valid_buckets (st : hashlin) : Z := hl_low_max st + hl_split st.

Ltac inv_bind H a m1 H1 := apply bind_ok in H as (a & m1 & H1 & H).

Lemma grow_loop_result lfuel : ∀ fuel st tgt m st' m',
  0 <= hl_split st < hl_low_max st → hl_low_max st <= 2 ^ 60 →
  hashlin_grow_loop fuel lfuel st tgt m = Ok st' m' →
  (tgt <= hl_valid_buckets st ∧ st' = st) ∨
  (hl_valid_buckets st < tgt < 2 * hl_low_max st ∧ st' = hl_set_split st (tgt - hl_low_max st)) ∨
  (hl_valid_buckets st < tgt ∧ 2 * hl_low_max st <= tgt ∧ st' = hashlin_stable st).
Proof.
  induction lfuel as [|lfuel IH]; intros fuel st tgt m st' m' Hs Hl Hr; rewrite /hl_valid_buckets; simpl in Hr;
    (assert (Hw : wrap (hl_split st + hl_low_max st) = hl_low_max st + hl_split st) by (rewrite /wrap Z.mod_small; lia));
    rewrite Hw in Hr; destruct (decide (hl_low_max st + hl_split st < tgt)) as [Hlt|Hge]; try done;
    try (injection Hr as <- <-; left; split; [lia|done]).
  inv_bind Hr s0 m1 H1. inv_bind Hr s1 m2 H2. inv_bind Hr j m3 H3. inv_bind Hr u1 m4 H4. inv_bind Hr u2 m5 H5.
  inv_bind Hr u3 m6 H6.
  assert (Hw1 : wrap (hl_split st + 1) = hl_split st + 1) by (rewrite /wrap Z.mod_small; lia). rewrite Hw1 in Hr.
  case_decide as Hend.
  - injection Hr as <- <-. right; right. simpl in Hend. split; [lia|]. split; [lia|]. done.
  - simpl in Hend. apply IH in Hr; [|simpl; lia|simpl; lia]. rewrite /hl_valid_buckets /= in Hr.
    destruct Hr as [[Hr1 ->]|[[Hr1 ->]|(Hr1 & Hr2 & ->)]].
    + right; left. split; [lia|]. rewrite /hl_set_split. f_equal. lia.
    + right; left. split; [lia|]. done.
    + right; right. done.
Qed.

Lemma shrink_loop_result lfuel : ∀ st tgt m st' m',
  1 <= hl_split st <= hl_low_max st → hl_low_max st <= 2 ^ 60 →
  hashlin_shrink_loop lfuel st tgt m = Ok st' m' →
  (hl_valid_buckets st <= tgt ∧ st' = st) ∨
  (hl_low_max st < tgt < hl_valid_buckets st ∧ st' = hl_set_split st (tgt - hl_low_max st)) ∨
  (tgt < hl_valid_buckets st ∧ tgt <= hl_low_max st ∧ hl_count st' = hl_count st ∧
   hl_state st' = STATE_STABLE ∧ hl_split st' = 0 ∧ hl_low_max st' = hl_bucket_max st' ∧
   hl_bucket_max st' = shl64 1 (hl_bucket_bit st - 1)).
Proof.
  induction lfuel as [|lfuel IH]; intros st tgt m st' m' Hs Hl Hr; rewrite /hl_valid_buckets; simpl in Hr;
    (assert (Hw : wrap (hl_split st + hl_low_max st) = hl_low_max st + hl_split st) by (rewrite /wrap Z.mod_small; lia));
    rewrite Hw in Hr; destruct (decide (tgt < hl_low_max st + hl_split st)) as [Hlt|Hge]; try done;
    try (injection Hr as <- <-; left; split; [lia|done]).
  inv_bind Hr s0 m1 H1. inv_bind Hr s1 m2 H2. inv_bind Hr u1 m3 H3.
  assert (Hw1 : sub64 (hl_split st) 1 = hl_split st - 1) by (rewrite /sub64 Z.mod_small; lia). rewrite Hw1 in Hr.
  case_decide as Hend.
  - inv_bind Hr t1 m4 H4. inv_bind Hr sg m5 H5. inv_bind Hr u2 m6 H6. injection Hr as <- <-.
    rewrite /hl_set_bit in H4. case_decide; [|done]. injection H4 as <- <-.
    right; right. split; [lia|]. split; [lia|]. done.
  - apply IH in Hr; [|simpl; lia|simpl; lia]. rewrite /hl_valid_buckets /= in Hr.
    destruct Hr as [[Hr1 ->]|[[Hr1 ->]|(Hr1 & Hr2 & Hr3)]].
    + right; left. split; [lia|]. rewrite /hl_set_split. f_equal. lia.
    + right; left. split; [lia|]. done.
    + right; right. split; [lia|]. split; [lia|]. exact Hr3.
Qed.

(** ** Amortised work *)

(** Work saved for later by the elements inserted while shrinking. *)
Definition credit (st : hashlin) : Z :=
  if decide (hl_state st = STATE_SHRINK) then Z.max 0 (2 * hl_count st - hl_low_max st / 2) else 0.

Lemma credit_other st : hl_state st ≠ STATE_SHRINK → credit st = 0.
Proof. intros. rewrite /credit. by destruct (decide (hl_state st = STATE_SHRINK)). Qed.
Lemma credit_shrink st : hl_state st = STATE_SHRINK → credit st = Z.max 0 (2 * hl_count st - hl_low_max st / 2).
Proof. intros. rewrite /credit. by destruct (decide (hl_state st = STATE_SHRINK)). Qed.

Lemma pow2_div8 k : 6 <= k → ∃ q, 2 ^ k = 64 * q ∧ 0 < q.
Proof.
  intros Hk. exists (2 ^ (k - 6)). split; [|by apply Z.pow_pos_nonneg; lia].
  change 64 with (2 ^ 6). rewrite -Z.pow_add_r; [|lia..]. f_equal. lia.
Qed.

Definition hl_moves (st st' : hashlin) : Z := Z.abs (hl_valid_buckets st' - hl_valid_buckets st).

Lemma grow_step_work fuel st n m st' m' :
  hashlin_inv st n → Z.of_nat n < 2 ^ 60 →
  hashlin_grow_step fuel (hl_set_count st (wrap (hl_count st + 1))) m = Ok st' m' →
  hl_moves st st' + credit st' <= credit st + 8.
Proof.
  intros (Hc & (k & Hk & Hbm & Hbit) & Hmask & H64 & Hcase) Hn Hr.
  destruct (pow2_div8 k ltac:(lia)) as (q & Hq & Hq0). pose proof (pow2_small k ltac:(lia)) as Hsm.
  rewrite Hc in Hr. replace (wrap (Z.of_nat n + 1)) with (Z.of_nat n + 1) in Hr by (rewrite /wrap Z.mod_small; lia).
  unfold hashlin_grow_step in Hr.
  cbn [hl_set_count hl_state hl_bucket_max hl_count] in Hr.
  assert (Hhalf : hl_bucket_max st / 2 = 32 * q).
  { rewrite Hbm Hq. symmetry. apply (Z.div_unique _ _ _ 0); lia. }
  rewrite Hhalf in Hr.
  assert (Hw2 : wrap (2 * (Z.of_nat n + 1)) = 2 * (Z.of_nat n + 1)) by (rewrite /wrap Z.mod_small; lia).
  rewrite /hl_moves.
  destruct Hcase as [(Hst & Hsp & Hlow & H1 & H2)|[(Hst & Hsp & Hlow & H1 & H2)|(Hst & Hsp & Hlow & H1 & H2)]].
  - rewrite Hst in Hr. rewrite (credit_other st); [|by rewrite Hst].
    inv_bind Hr st1 m1 Hs1.
    destruct (decide (STATE_STABLE ≠ STATE_GROW ∧ 32 * q < Z.of_nat n + 1)) as [Hd|Hd].
    + inv_bind Hs1 st2 m2 Hs2. injection Hs1 as <- <-.
      inv_bind Hs2 sg m3 Hsg. inv_bind Hs2 st3 m4 Hs3. inv_bind Hs2 st4 m5 Hs4. injection Hs2 as <- <-.
      rewrite /hl_set in Hs3. case_decide; [|done]. injection Hs3 as <- <-.
      rewrite /hl_set_bit in Hs4. case_decide; [|done]. injection Hs4 as <- <-.
      cbn [hl_set_low hl_set_split hl_set_state hl_set_count hl_state hl_bucket hl_bucket_max hl_bucket_mask hl_low_max hl_low_mask hl_split hl_count hl_bucket_bit] in Hr.
      rewrite ?decide_True // Hw2 in Hr. apply grow_loop_result in Hr; [|simpl; lia|simpl; lia].
      rewrite /hl_valid_buckets in Hr |- *.
      cbn [hashlin_stable hl_set_low hl_set_split hl_set_state hl_set_count hl_state hl_bucket hl_bucket_max hl_bucket_mask hl_low_max hl_low_mask hl_split hl_count hl_bucket_bit] in Hr.
      destruct Hr as [[Hr1 ->]|[[Hr1 ->]|(Hr1 & Hr2 & ->)]]; (rewrite credit_other; [simpl; lia|done]).
    + injection Hs1 as <- <-. rewrite decide_False in Hr; [|by rewrite /= Hst]. injection Hr as <- <-.
      rewrite /hl_valid_buckets /= credit_other; [lia|by rewrite /= Hst].
  - rewrite Hst in Hr. rewrite (credit_other st); [|by rewrite Hst].
    inv_bind Hr st1 m1 Hs1.
    destruct (decide (STATE_GROW ≠ STATE_GROW ∧ 32 * q < Z.of_nat n + 1)) as [Hd|Hd]; [by destruct Hd|]. injection Hs1 as <- <-.
    rewrite decide_True // in Hr. rewrite /= Hw2 in Hr. apply grow_loop_result in Hr; [|simpl; lia|simpl; lia].
    rewrite /hl_valid_buckets /= in Hr |- *.
    destruct Hr as [[Hr1 ->]|[[Hr1 ->]|(Hr1 & Hr2 & ->)]]; (rewrite credit_other; [simpl; lia|by rewrite /= ?Hst]).
  - rewrite Hst in Hr. rewrite (credit_shrink st) //.
    assert (Hl2 : hl_low_max st / 2 = 16 * q).
    { replace (hl_low_max st) with (32 * q) by lia. symmetry. apply (Z.div_unique _ _ _ 0); lia. }
    inv_bind Hr st1 m1 Hs1.
    destruct (decide (STATE_SHRINK ≠ STATE_GROW ∧ 32 * q < Z.of_nat n + 1)) as [Hd|Hd].
    + inv_bind Hs1 st2 m2 Hs2. injection Hs2 as <- <-. injection Hs1 as <- <-.
      rewrite ?decide_True // /= Hw2 in Hr. apply grow_loop_result in Hr; [|simpl; lia|simpl; lia].
      rewrite /hl_valid_buckets /= in Hr |- *.
      destruct Hr as [[Hr1 ->]|[[Hr1 ->]|(Hr1 & Hr2 & ->)]]; (rewrite credit_other; [simpl; lia|done]).
    + injection Hs1 as <- <-. rewrite decide_False in Hr; [|by rewrite /= Hst]. injection Hr as <- <-.
      rewrite /hl_valid_buckets /= credit_shrink /=; [lia|by rewrite /= Hst].
Qed.

Lemma shrink_step_work st n m st' m' :
  hashlin_inv st n → Z.of_nat n < 2 ^ 60 → (1 <= n)%nat →
  hashlin_shrink_step (hl_set_count st (sub64 (hl_count st) 1)) m = Ok st' m' →
  hl_moves st st' + credit st' <= credit st + 8.
Proof.
  intros (Hc & (k & Hk & Hbm & Hbit) & Hmask & H64 & Hcase) Hn Hn1 Hr.
  destruct (pow2_div8 k ltac:(lia)) as (q & Hq & Hq0). pose proof (pow2_small k ltac:(lia)) as Hsm.
  rewrite Hc in Hr. replace (sub64 (Z.of_nat n) 1) with (Z.of_nat n - 1) in Hr by (rewrite /sub64 Z.mod_small; lia).
  unfold hashlin_shrink_step in Hr.
  cbn [hl_set_count hl_state hl_bucket_max hl_bucket_mask hl_bucket_bit hl_count] in Hr.
  assert (Hhalf : hl_bucket_max st / 2 = 32 * q).
  { rewrite Hbm Hq. symmetry. apply (Z.div_unique _ _ _ 0); lia. }
  assert (H8 : hl_bucket_max st / 8 = 8 * q).
  { rewrite Hbm Hq. symmetry. apply (Z.div_unique _ _ _ 0); lia. }
  rewrite Hhalf H8 in Hr.
  assert (Hw8 : wrap (8 * (Z.of_nat n - 1)) = 8 * (Z.of_nat n - 1)) by (rewrite /wrap Z.mod_small; lia).
  assert (Hsh : 6 < k → shl64 1 (k - 1) = 32 * q).
  { intros. rewrite shl64_pow; [|lia]. assert (2 ^ k = 2 * 2 ^ (k - 1)); [|lia].
    rewrite -Z.pow_succ_r; [|lia]. f_equal. lia. }
  rewrite /hl_moves.
  destruct Hcase as [(Hst & Hsp & Hlow & H1 & H2)|[(Hst & Hsp & Hlow & H1 & H2)|(Hst & Hsp & Hlow & H1 & H2)]].
  - rewrite Hst in Hr. rewrite (credit_other st); [|by rewrite Hst].
    rewrite Hbit in Hr.
    destruct (decide (STATE_STABLE ≠ STATE_SHRINK ∧ Z.of_nat n - 1 < 8 * q ∧ HASHLIN_BIT < k)) as [(_ & Hd & Hk6)|Hno].
    + rewrite /HASHLIN_BIT in Hk6.
      cbn [hl_set_low hl_set_split hl_set_state hl_set_count hl_state hl_bucket hl_bucket_max hl_bucket_mask hl_low_max hl_low_mask hl_split hl_count hl_bucket_bit] in Hr.
      rewrite ?decide_True // Hw8 in Hr.
      assert (q ≠ 1). { intros ->. assert (2 ^ 7 ≤ 2 ^ k) by (apply Z.pow_le_mono_r; lia). lia. }
      apply shrink_loop_result in Hr; [|simpl; lia|simpl; lia].
      rewrite /hl_valid_buckets in Hr |- *.
      cbn [hl_set_low hl_set_split hl_set_state hl_set_count hl_state hl_bucket hl_bucket_max hl_bucket_mask hl_low_max hl_low_mask hl_split hl_count hl_bucket_bit] in Hr.
      assert (Hl2 : 32 * q / 2 = 16 * q) by (symmetry; apply (Z.div_unique _ _ _ 0); lia).
      destruct Hr as [[Hr1 ->]|[[Hr1 ->]|(Hr1 & Hr2 & Hc' & Hst' & Hsp' & Hlow' & Hbm')]].
      * rewrite credit_shrink /=; [rewrite Hl2; lia|by rewrite /= ?Hst].
      * rewrite credit_shrink /=; [rewrite Hl2; lia|by rewrite /= ?Hst].
      * simpl in Hr1, Hr2, Hbm'. rewrite credit_other; [|by rewrite Hst']. rewrite Hsp' Hlow' Hbm' Hbit Hsh //. lia.
    + rewrite decide_False in Hr; [|by rewrite /= Hst]. injection Hr as <- <-.
      rewrite /hl_valid_buckets /= credit_other; [lia|by rewrite /= Hst].
  - rewrite Hst in Hr. rewrite (credit_other st); [|by rewrite Hst].
    rewrite Hbit in Hr.
    assert (Hl2 : hl_low_max st / 2 = 16 * q).
    { replace (hl_low_max st) with (32 * q) by lia. symmetry. apply (Z.div_unique _ _ _ 0); lia. }
    destruct (decide (STATE_GROW ≠ STATE_SHRINK ∧ Z.of_nat n - 1 < 8 * q ∧ HASHLIN_BIT < k)) as [(_ & Hd & Hk6)|Hno].
    + rewrite /HASHLIN_BIT in Hk6. simpl in Hr. rewrite ?decide_True // Hw8 in Hr.
      apply shrink_loop_result in Hr; [|simpl; lia|simpl; lia].
      rewrite /hl_valid_buckets /= in Hr |- *.
      destruct Hr as [[Hr1 ->]|[[Hr1 ->]|(Hr1 & Hr2 & Hc' & Hst' & Hsp' & Hlow' & Hbm')]].
      * rewrite credit_shrink /=; [rewrite Hl2; lia|by rewrite /= ?Hst].
      * rewrite credit_shrink /=; [rewrite Hl2; lia|by rewrite /= ?Hst].
      * rewrite credit_other; [|by rewrite Hst']. rewrite Hsp' Hlow' Hbm' Hbit Hsh //. lia.
    + rewrite decide_False in Hr; [|by rewrite /= Hst]. injection Hr as <- <-.
      rewrite /hl_valid_buckets /= credit_other; [lia|by rewrite /= Hst].
  - rewrite Hst in Hr. rewrite (credit_shrink st) //.
    assert (Hl2 : hl_low_max st / 2 = 16 * q).
    { replace (hl_low_max st) with (32 * q) by lia. symmetry. apply (Z.div_unique _ _ _ 0); lia. }
    assert (Hk6 : 6 < k).
    { destruct (decide (k = 6)) as [->|]; [|lia]. change (2 ^ 6) with 64 in *. lia. }
    destruct (decide (STATE_SHRINK ≠ STATE_SHRINK ∧ Z.of_nat n - 1 < 8 * q ∧ HASHLIN_BIT < hl_bucket_bit st)) as [[? _]|_]; [done|].
    rewrite /= Hst in Hr.
    rewrite ?decide_True // /= Hw8 in Hr.
    apply shrink_loop_result in Hr; [|simpl; lia|simpl; lia].
    rewrite /hl_valid_buckets /= in Hr |- *.
    destruct Hr as [[Hr1 ->]|[[Hr1 ->]|(Hr1 & Hr2 & Hc' & Hst' & Hsp' & Hlow' & Hbm')]].
    + rewrite credit_shrink /=; [rewrite Hl2; lia|by rewrite /= ?Hst].
    + rewrite credit_shrink /=; [rewrite Hl2; lia|by rewrite /= ?Hst].
    + rewrite credit_other; [|by rewrite Hst']. rewrite Hsp' Hlow' Hbm' Hbit Hsh //. lia.
Qed.
