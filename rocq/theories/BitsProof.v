(** * Proofs about the bit functions *)
From Verif Require Export Bits.
Global Open Scope Z_scope.

(** ** smear *)
(** [Q n m w]: the bits of [w] above [n] are zero, and bits n-m+1 .. n are set *)
Definition smeared (n m w : Z) : Prop :=
  0 ≤ w ∧ ∀ i, 0 ≤ i → (n - m < i ≤ n → Z.testbit w i = true) ∧ (n < i → Z.testbit w i = false).

Lemma smeared_start v : 0 < v → smeared (Z.log2 v) 1 v.
Proof.
  intros Hv. split; [lia|]. intros i Hi. split.
  - intros ?. assert (i = Z.log2 v) as -> by lia. apply Z.bit_log2; lia.
  - intros. apply Z.bits_above_log2; lia.
Qed.

Lemma smeared_step n m w k :
  0 < k ≤ m → smeared n m w → smeared n (m + k) (smear k w).
Proof.
  intros Hk [Hw Hb]. unfold smear, shr. split.
  { apply Z.lor_nonneg. split; [done|]. by apply Z.shiftr_nonneg. }
  intros i Hi. rewrite Z.lor_spec Z.shiftr_spec //.
  destruct (Hb i Hi) as [H1 H2]. destruct (Hb (i + k)) as [H3 H4]; [lia|]. split.
  - intros ?. destruct (decide (n - m < i)).
    + by rewrite (H1 ltac:(lia)).
    + by rewrite (H3 ltac:(lia)) orb_true_r.
  - intros ?. by rewrite (H2 ltac:(lia)) (H4 ltac:(lia)).
Qed.

Lemma smeared_full n m w : 0 ≤ n → n < m → smeared n m w → w = 2 ^ (n + 1) - 1.
Proof.
  intros Hn Hm [Hw Hb]. assert (w = Z.ones (n + 1)) as ->; [|rewrite Z.ones_equiv; lia].
  apply Z.bits_inj'. intros i Hi. destruct (Hb i Hi) as [H1 H2].
  destruct (decide (i < n + 1)).
  - rewrite -> Z.ones_spec_low by lia. apply H1. lia.
  - rewrite -> Z.ones_spec_high by lia. apply H2. lia.
Qed.

Lemma smear_all_32 v : 0 < v < 2 ^ 32 →
  smear 16 (smear 8 (smear 4 (smear 2 (smear 1 v)))) = 2 ^ (Z.log2 v + 1) - 1.
Proof.
  intros Hv. pose proof (Z.log2_nonneg v).
  assert (Z.log2 v < 32) by (apply Z.log2_lt_pow2; lia).
  apply (smeared_full _ (1 + 1 + 2 + 4 + 8 + 16)); [lia|lia|].
  repeat (apply smeared_step; [lia|]). apply smeared_start; lia.
Qed.

Lemma smear_all_64 v : 0 < v < 2 ^ 64 →
  smear 32 (smear 16 (smear 8 (smear 4 (smear 2 (smear 1 v))))) = 2 ^ (Z.log2 v + 1) - 1.
Proof.
  intros Hv. pose proof (Z.log2_nonneg v).
  assert (Z.log2 v < 64) by (apply Z.log2_lt_pow2; lia).
  apply (smeared_full _ (1 + 1 + 2 + 4 + 8 + 16 + 32)); [lia|lia|].
  repeat (apply smeared_step; [lia|]). apply smeared_start; lia.
Qed.

(** Case analysis over the integers of a small interval *)
Lemma interval_forall (P : Z → Prop) (n : nat) :
  (∀ i, (i < n)%nat → P (Z.of_nat i)) → ∀ z, 0 ≤ z < Z.of_nat n → P z.
Proof. intros H z Hz. rewrite <- (Z2Nat.id z) by lia. apply H. lia. Qed.

Lemma forallb_seq (f : nat → bool) n :
  forallb f (seq 0 n) = true → ∀ i, (i < n)%nat → f i = true.
Proof. rewrite forallb_forall. intros H i Hi. apply H. apply in_seq. lia. Qed.

Lemma ilog2_table z : 0 ≤ z < 32 →
  tbl DE_BRUIJN_INDEX_ILOG2 (shr (mul32 (2 ^ (z + 1) - 1) 0x07C4ACDD) 27) = z.
Proof.
  revert z. apply (interval_forall _ 32). intros i Hi. apply Z.eqb_eq.
  revert i Hi. apply forallb_seq. vm_compute. reflexivity.
Qed.

Lemma ilog2_u32_portable_ok v : 0 < v < 2 ^ 32 → ilog2_u32_portable v = Z.log2 v.
Proof.
  intros Hv. unfold ilog2_u32_portable. rewrite smear_all_32 //. apply ilog2_table.
  split; [apply Z.log2_nonneg|]. apply Z.log2_lt_pow2; lia.
Qed.

Lemma land_ones_mod v n : 0 ≤ n → Z.land v (2 ^ n - 1) = v mod 2 ^ n.
Proof. intros. rewrite -Z.land_ones // Z.ones_equiv. f_equal. Qed.

Lemma ilog2_u64_portable_ok v : 0 < v < 2 ^ 64 → ilog2_u64_portable v = Z.log2 v.
Proof.
  intros Hv. unfold ilog2_u64_portable, shr.
  change 0xFFFFFFFF with (2 ^ 32 - 1). rewrite land_ones_mod // Z.shiftr_div_pow2 //.
  case_decide as Hh.
  - assert (0 < v / 2 ^ 32 < 2 ^ 32).
    { assert (0 ≤ v / 2 ^ 32) by (apply Z.div_pos; lia). split; [lia|].
      apply Z.div_lt_upper_bound; lia. }
    rewrite ilog2_u32_portable_ok //.
    rewrite -Z.shiftr_div_pow2 //. rewrite -> Z.log2_shiftr by lia.
    assert (32 <= Z.log2 v); [|lia].
    apply Z.log2_le_pow2; [lia|]. destruct (Z.le_gt_cases (2 ^ 32) v); [done|].
    rewrite Z.div_small in Hh; lia.
  - assert (v / 2 ^ 32 = 0) by lia.
    assert (v < 2 ^ 32) by (apply Z.div_small_iff in H; lia).
    rewrite -> Z.mod_small by lia. apply ilog2_u32_portable_ok. lia.
Qed.

Lemma lxor_compl n z : 0 ≤ n → 0 ≤ z < 2 ^ n → Z.lxor z (2 ^ n - 1) = 2 ^ n - 1 - z.
Proof.
  intros Hn Hz. assert (2 ^ n - 1 = Z.ones n) as -> by (rewrite Z.ones_equiv; lia).
  enough (Z.lxor z (Z.ones n) + z = Z.ones n) by lia.
  rewrite -> Z.add_nocarry_lxor.
  { rewrite Z.lxor_assoc (Z.lxor_comm (Z.ones n)) -Z.lxor_assoc Z.lxor_nilpotent Z.lxor_0_l. done. }
  { apply Z.bits_inj'. intros i Hi. rewrite Z.land_spec Z.lxor_spec Z.bits_0.
    destruct (decide (i < n)).
    + rewrite -> Z.ones_spec_low by lia. by destruct (Z.testbit z i).
    + assert (Z.testbit z i = false) as ->; [|by rewrite andb_false_r].
      destruct (decide (z = 0)) as [->|]; [apply Z.bits_0|].
      apply Z.bits_above_log2; [lia|]. apply Z.log2_lt_pow2; [lia|].
      apply Z.lt_le_trans with (2 ^ n); [lia|]. apply Z.pow_le_mono_r; lia. }
Qed.

Lemma ilog2_u32_gnuc_ok v : 0 < v < 2 ^ 32 → ilog2_u32_gnuc v = Z.log2 v.
Proof.
  intros Hv. unfold ilog2_u32_gnuc, builtin_clz. pose proof (Z.log2_nonneg v).
  assert (Z.log2 v < 32) by (apply Z.log2_lt_pow2; lia).
  rewrite (lxor_compl 5); lia.
Qed.
Lemma ilog2_u64_gnuc_ok v : 0 < v < 2 ^ 64 → ilog2_u64_gnuc v = Z.log2 v.
Proof.
  intros Hv. unfold ilog2_u64_gnuc, builtin_clz. pose proof (Z.log2_nonneg v).
  assert (Z.log2 v < 64) by (apply Z.log2_lt_pow2; lia).
  rewrite (lxor_compl 6); lia.
Qed.

(** ** ctz *)
Lemma pos_ctz_spec p : ∃ q, 0 ≤ q ∧ Zpos p = 2 ^ pos_ctz p * (2 * q + 1) ∧ 0 ≤ pos_ctz p.
Proof.
  induction p as [p IH|p IH|]; simpl.
  - exists (Zpos p). split; [lia|]. rewrite (Pos2Z.inj_xI p). lia.
  - destruct IH as (q&Hq&IH&H0). exists q. split; [done|]. rewrite (Pos2Z.inj_xO p) IH.
    rewrite (Z.pow_add_r 2 1) //. lia.
  - exists 0. lia.
Qed.

Lemma ctz_decomp v : 0 < v → ∃ k q, 0 ≤ k ∧ 0 ≤ q ∧ v = 2 ^ k * (2 * q + 1) ∧ builtin_ctz v = k.
Proof.
  intros Hv. destruct v as [|p|p]; try lia. destruct (pos_ctz_spec p) as (q&?&?&?).
  eexists _, q. eauto.
Qed.

Lemma testbit_pow2_mul k q i : 0 ≤ k → 0 ≤ q → 0 ≤ i →
  Z.testbit (2 ^ k * (2 * q + 1)) i = if decide (i < k) then false else Z.testbit (2 * q + 1) (i - k).
Proof.
  intros. rewrite Z.mul_comm. case_decide.
  - by apply Z.mul_pow2_bits_low.
  - by rewrite Z.mul_pow2_bits.
Qed.

Lemma land_neg k q n : 0 ≤ k < n → 0 ≤ q → 2 ^ k * (2 * q + 1) < 2 ^ n →
  Z.land (2 ^ k * (2 * q + 1)) ((- (2 ^ k * (2 * q + 1))) mod 2 ^ n) = 2 ^ k.
Proof.
  intros Hk Hq Hlt. assert (Hp : 0 < 2 ^ k) by (apply Z.pow_pos_nonneg; lia).
  assert (Hs : 2 ^ n = 2 ^ k * 2 ^ (n - k)) by (rewrite <- Z.pow_add_r by lia; f_equal; lia).
  assert (Hpn : 0 < 2 ^ (n - k)) by (apply Z.pow_pos_nonneg; lia).
  assert (Hq2 : 2 * q + 1 < 2 ^ (n - k)) by nia.
  assert (Hpn1 : 2 ^ (n - k) = 2 * 2 ^ (n - k - 1)).
  { rewrite <- (Z.pow_succ_r 2) by lia. f_equal; lia. }
  set (r := 2 ^ (n - k - 1) - q - 1).
  assert (Hneg : (- (2 ^ k * (2 * q + 1))) mod 2 ^ n = 2 ^ k * (2 * r + 1)).
  { symmetry. apply (Z.mod_unique_pos _ _ (-1)); unfold r; nia. }
  rewrite Hneg. apply Z.bits_inj'. intros i Hi. rewrite Z.land_spec.
  rewrite -> (testbit_pow2_mul k q) by lia. rewrite -> (testbit_pow2_mul k r) by (unfold r; lia).
  case_decide as Hik.
  - rewrite Z.pow2_bits_false //. lia.
  - destruct (decide (i = k)) as [->|].
    + rewrite Z.sub_diag !Z.testbit_odd_0 Z.pow2_bits_true //; lia.
    + rewrite -> Z.pow2_bits_false by lia.
      replace (i - k) with (Z.succ (i - k - 1)) by lia.
      rewrite !Z.testbit_odd_succ; try lia.
      destruct (decide (i < n)).
      * (* q + r = 2^(n-k-1) - 1: complementary bits *)
        assert (r = Z.lxor q (2 ^ (n - k - 1) - 1)) as ->.
        { rewrite lxor_compl; unfold r; lia. }
        assert (2 ^ (n - k - 1) - 1 = Z.ones (n - k - 1)) as -> by (rewrite Z.ones_equiv; lia).
        rewrite -> Z.lxor_spec, Z.ones_spec_low by lia. by destruct (Z.testbit q _).
      * assert (Z.testbit q (i - k - 1) = false) as ->; [|done].
        destruct (decide (q = 0)) as [->|]; [apply Z.bits_0|].
        apply Z.bits_above_log2; [lia|]. apply Z.log2_lt_pow2; [lia|].
        apply Z.lt_le_trans with (2 ^ (n - k - 1)); [lia|]. apply Z.pow_le_mono_r; lia.
Qed.

Lemma ctz_table z : 0 ≤ z < 32 →
  tbl DE_BRUIJN_INDEX_CTZ (shr (mul32 (2 ^ z) 0x077CB531) 27) = z.
Proof.
  revert z. apply (interval_forall _ 32). intros i Hi. apply Z.eqb_eq.
  revert i Hi. apply forallb_seq. vm_compute. reflexivity.
Qed.

Lemma ctz_bound v k q n : 0 < n → 0 ≤ k → 0 ≤ q → v = 2 ^ k * (2 * q + 1) → v < 2 ^ n → k < n.
Proof.
  intros. apply (Z.pow_lt_mono_r_iff 2); [lia|lia|].
  assert (0 < 2 ^ k) by (apply Z.pow_pos_nonneg; lia). nia.
Qed.

Lemma ctz_u32_portable_ok v : 0 < v < 2 ^ 32 → ctz_u32_portable v = builtin_ctz v.
Proof.
  intros Hv. destruct (ctz_decomp v) as (k&q&Hk&Hq&Heq&->); [lia|].
  assert (k < 32) by (eapply ctz_bound; eauto; lia).
  unfold ctz_u32_portable, sub32. rewrite Z.sub_0_l {1 2}Heq. rewrite -> land_neg by lia.
  apply ctz_table; lia.
Qed.

Lemma builtin_ctz_unique v k q : 0 ≤ k → 0 ≤ q → v = 2 ^ k * (2 * q + 1) → builtin_ctz v = k.
Proof.
  intros Hk Hq Hv. assert (0 < 2 ^ k) by (apply Z.pow_pos_nonneg; lia).
  destruct (ctz_decomp v) as (k'&q'&Hk'&Hq'&Heq&->); [nia|].
  assert (0 < 2 ^ k') by (apply Z.pow_pos_nonneg; lia).
  destruct (Z.lt_trichotomy k k') as [Hlt|[->|Hlt]]; [exfalso| done |exfalso].
  - replace k' with (k + 1 + (k' - k - 1)) in Heq by lia.
    rewrite -> !Z.pow_add_r in Heq by lia.
    assert (2 * q + 1 = 2 * (2 ^ (k' - k - 1) * (2 * q' + 1))); [|lia].
    apply (Z.mul_reg_l _ _ (2 ^ k)); nia.
  - replace k with (k' + 1 + (k - k' - 1)) in Hv by lia.
    rewrite -> !Z.pow_add_r in Hv by lia.
    assert (2 * q' + 1 = 2 * (2 ^ (k - k' - 1) * (2 * q + 1))); [|lia].
    apply (Z.mul_reg_l _ _ (2 ^ k')); nia.
Qed.

Lemma ctz_u64_portable_ok v : 0 < v < 2 ^ 64 → ctz_u64_portable v = builtin_ctz v.
Proof.
  intros Hv. unfold ctz_u64_portable, shr.
  change 0xFFFFFFFF with (2 ^ 32 - 1). rewrite land_ones_mod // Z.shiftr_div_pow2 //.
  pose proof (Z.div_mod v (2 ^ 32)) as Hdm. specialize (Hdm ltac:(lia)).
  pose proof (Z.mod_pos_bound v (2 ^ 32) ltac:(lia)).
  assert (v / 2 ^ 32 < 2 ^ 32) by (apply Z.div_lt_upper_bound; lia).
  assert (0 ≤ v / 2 ^ 32) by (apply Z.div_pos; lia).
  case_decide as Hl.
  - rewrite -> ctz_u32_portable_ok by lia.
    destruct (ctz_decomp (v mod 2 ^ 32)) as (k&q&Hk&Hq&Heq&->); [lia|].
    assert (k < 32) by (eapply ctz_bound; eauto; lia).
    symmetry. apply (builtin_ctz_unique _ _ (q + v / 2 ^ 32 * 2 ^ (31 - k))); [done| |].
    + assert (0 < 2 ^ (31 - k)) by (apply Z.pow_pos_nonneg; lia). nia.
    + rewrite {1}Hdm Heq.
      assert (2 ^ 32 = 2 ^ k * 2 ^ 1 * 2 ^ (31 - k)) as Hs.
      { rewrite <- !Z.pow_add_r by lia. f_equal. lia. }
      rewrite {1}Hs. ring.
  - assert (v mod 2 ^ 32 = 0) as Hz by lia.
    rewrite -> ctz_u32_portable_ok by lia.
    destruct (ctz_decomp (v / 2 ^ 32)) as (k&q&Hk&Hq&Heq&->); [lia|].
    symmetry. apply (builtin_ctz_unique _ _ q); [lia|done|].
    rewrite {1}Hdm Hz Heq Z.pow_add_r; lia.
Qed.

(** Characterisation of [builtin_ctz] by bits *)
Lemma builtin_ctz_bits v : 0 < v →
  0 ≤ builtin_ctz v ∧ Z.testbit v (builtin_ctz v) = true ∧
  ∀ i, 0 ≤ i < builtin_ctz v → Z.testbit v i = false.
Proof.
  intros Hv. destruct (ctz_decomp v) as (k&q&Hk&Hq&Heq&->); [lia|]. split; [done|]. split.
  - rewrite Heq testbit_pow2_mul //. rewrite -> decide_False by lia. by rewrite Z.sub_diag Z.testbit_odd_0.
  - intros i Hi. rewrite -> Heq, testbit_pow2_mul by lia. rewrite decide_True //. lia.
Qed.

(** Same for [Z.log2] *)
Lemma log2_bits v : 0 < v →
  0 ≤ Z.log2 v ∧ Z.testbit v (Z.log2 v) = true ∧ ∀ i, Z.log2 v < i → Z.testbit v i = false.
Proof.
  intros. split; [apply Z.log2_nonneg|]. split; [apply Z.bit_log2; lia|].
  intros. apply Z.bits_above_log2; lia.
Qed.

(** ** roundup *)
Lemma roundup_gen v : 1 < v → 2 ^ Z.log2 (v - 1) < v ≤ 2 ^ (Z.log2 (v - 1) + 1).
Proof.
  intros. pose proof (Z.log2_spec (v - 1) ltac:(lia)). rewrite Z.add_1_r. lia.
Qed.

Lemma roundup_pow2_u32_ok v : 1 ≤ v ≤ 2 ^ 31 →
  ∃ k, 0 ≤ k ≤ 31 ∧ roundup_pow2_u32 v = 2 ^ k ∧ v ≤ 2 ^ k ∧ (∀ j, 0 ≤ j → v ≤ 2 ^ j → k ≤ j).
Proof.
  intros Hv. unfold roundup_pow2_u32, sub32, add32.
  rewrite -> (Z.mod_small (v - 1)) by lia.
  destruct (decide (v = 1)) as [->|].
  { exists 0. split; [lia|]. split; [done|]. split; [lia|]. intros; lia. }
  rewrite -> smear_all_32 by lia.
  pose proof (roundup_gen v ltac:(lia)) as [H1 H2]. pose proof (Z.log2_nonneg (v - 1)).
  assert (Z.log2 (v - 1) < 31) by (apply Z.log2_lt_pow2; lia).
  exists (Z.log2 (v - 1) + 1). split; [lia|]. split.
  - rewrite Z.sub_add Z.mod_small //. split; [lia|].
    apply (Z.pow_lt_mono_r 2); lia.
  - split; [done|]. intros j Hj Hvj.
    assert (Z.log2 (v - 1) < j); [|lia].
    apply (Z.pow_lt_mono_r_iff 2); lia.
Qed.

Lemma roundup_pow2_u64_ok v : 1 ≤ v ≤ 2 ^ 63 →
  ∃ k, 0 ≤ k ≤ 63 ∧ roundup_pow2_u64 v = 2 ^ k ∧ v ≤ 2 ^ k ∧ (∀ j, 0 ≤ j → v ≤ 2 ^ j → k ≤ j).
Proof.
  intros Hv. unfold roundup_pow2_u64, sub64, add64.
  rewrite -> (Z.mod_small (v - 1)) by lia.
  destruct (decide (v = 1)) as [->|].
  { exists 0. split; [lia|]. split; [done|]. split; [lia|]. intros; lia. }
  rewrite -> smear_all_64 by lia.
  pose proof (roundup_gen v ltac:(lia)) as [H1 H2]. pose proof (Z.log2_nonneg (v - 1)).
  assert (Z.log2 (v - 1) < 63) by (apply Z.log2_lt_pow2; lia).
  exists (Z.log2 (v - 1) + 1). split; [lia|]. split.
  - rewrite Z.sub_add Z.mod_small //. split; [lia|].
    apply (Z.pow_lt_mono_r 2); lia.
  - split; [done|]. intros j Hj Hvj.
    assert (Z.log2 (v - 1) < j); [|lia].
    apply (Z.pow_lt_mono_r_iff 2); lia.
Qed.

(** Outside that range the function returns 0 (documented as undefined for 0) *)
Lemma roundup_pow2_u64_big v : v = 0 ∨ 2 ^ 63 < v < 2 ^ 64 → roundup_pow2_u64 v = 0.
Proof.
  intros [->|Hv]; [done|]. unfold roundup_pow2_u64, sub64, add64.
  rewrite -> (Z.mod_small (v - 1)) by lia. rewrite -> smear_all_64 by lia.
  assert (Z.log2 (v - 1) = 63) as ->; [|done].
  apply Z.log2_unique; lia.
Qed.

(** ** haszero *)
Definition byte_of (v i : Z) : Z := (v / 2 ^ (8 * i)) mod 2 ^ 8.

Lemma testbit_div v i : 0 ≤ i → Z.testbit v i = bool_decide ((v / 2 ^ i) mod 2 = 1).
Proof.
  intros. pose proof (Z.testbit_spec' v i ltac:(lia)).
  destruct (Z.testbit v i); simpl in *; symmetry.
  - by apply bool_decide_eq_true.
  - apply bool_decide_eq_false. lia.
Qed.

Lemma land_80808080 x : Z.land x 0x80808080 ≠ 0 ↔
  Z.testbit x 7 = true ∨ Z.testbit x 15 = true ∨ Z.testbit x 23 = true ∨ Z.testbit x 31 = true.
Proof.
  split.
  - intros Hne. destruct (Z.testbit x 7) eqn:H7; [auto|]. destruct (Z.testbit x 15) eqn:H15; [auto|].
    destruct (Z.testbit x 23) eqn:H23; [auto|]. destruct (Z.testbit x 31) eqn:H31; [auto|].
    exfalso. apply Hne. apply Z.bits_inj'. intros i Hi. rewrite Z.land_spec Z.bits_0.
    destruct (decide (i < 32)).
    + assert (Hc : Z.testbit 0x80808080 i = bool_decide (i = 7 ∨ i = 15 ∨ i = 23 ∨ i = 31)).
      { assert (Hir : 0 ≤ i < 32) by lia. clear Hi l. revert i Hir. apply (interval_forall _ 32).
        intros i Hi. apply eqb_prop. revert i Hi. apply forallb_seq. vm_compute. done. }
      rewrite Hc. case_bool_decide as Hd; [|by rewrite andb_false_r].
      destruct Hd as [->|[->|[->| ->]]]; by rewrite ?H7 ?H15 ?H23 ?H31.
    + assert (Z.testbit 0x80808080 i = false) as ->; [|by rewrite andb_false_r].
      apply Z.bits_above_log2; [lia|]. change (Z.log2 0x80808080) with 31. lia.
  - intros H Hz. assert (Hall : ∀ i, Z.testbit (Z.land x 0x80808080) i = false).
    { intros i. rewrite Hz. apply Z.bits_0. }
    destruct H as [H|[H|[H|H]]].
    + specialize (Hall 7). by rewrite Z.land_spec H in Hall.
    + specialize (Hall 15). by rewrite Z.land_spec H in Hall.
    + specialize (Hall 23). by rewrite Z.land_spec H in Hall.
    + specialize (Hall 31). by rewrite Z.land_spec H in Hall.
Qed.

Lemma haszero_ok v : 0 ≤ v < 2 ^ 32 →
  haszero_u32 v = true ↔ (byte_of v 0 = 0 ∨ byte_of v 1 = 0 ∨ byte_of v 2 = 0 ∨ byte_of v 3 = 0).
Proof.
  intros Hv. unfold haszero_u32. rewrite bool_decide_eq_true land_80808080.
  rewrite !Z.land_spec. unfold not32. rewrite !Z.lxor_spec.
  change (Z.testbit (2 ^ 32 - 1) 7) with true. change (Z.testbit (2 ^ 32 - 1) 15) with true.
  change (Z.testbit (2 ^ 32 - 1) 23) with true. change (Z.testbit (2 ^ 32 - 1) 31) with true.
  rewrite !xorb_true_r !andb_true_iff !negb_true_iff.
  rewrite !testbit_div // !bool_decide_eq_true !bool_decide_eq_false.
  unfold sub32, byte_of.
  change (2 ^ (8 * 0)) with 1. change (2 ^ (8 * 1)) with 256. change (2 ^ (8 * 2)) with 65536.
  change (2 ^ (8 * 3)) with 16777216. change (2 ^ 8) with 256.
  change (2 ^ 7) with 128. change (2 ^ 15) with 32768. change (2 ^ 23) with 8388608.
  change (2 ^ 31) with 2147483648. change (2 ^ 32) with 4294967296 in *.
  rewrite Z.div_1_r.
  assert (∃ b0 b1 b2 b3, 0 ≤ b0 < 256 ∧ 0 ≤ b1 < 256 ∧ 0 ≤ b2 < 256 ∧ 0 ≤ b3 < 256 ∧
    v = b0 + 256 * b1 + 65536 * b2 + 16777216 * b3) as (b0&b1&b2&b3&?&?&?&?&->).
  { exists (v mod 256), (v / 256 mod 256), (v / 65536 mod 256), (v / 16777216).
    Z.to_euclidean_division_equations; lia. }
  assert ((b0 + 256 * b1 + 65536 * b2 + 16777216 * b3) mod 256 = b0) as ->
    by (Z.to_euclidean_division_equations; lia).
  assert ((b0 + 256 * b1 + 65536 * b2 + 16777216 * b3) / 256 mod 256 = b1) as ->
    by (Z.to_euclidean_division_equations; lia).
  assert ((b0 + 256 * b1 + 65536 * b2 + 16777216 * b3) / 65536 mod 256 = b2) as ->
    by (Z.to_euclidean_division_equations; lia).
  assert ((b0 + 256 * b1 + 65536 * b2 + 16777216 * b3) / 16777216 mod 256 = b3) as ->
    by (Z.to_euclidean_division_equations; lia).
  set (v := b0 + 256 * b1 + 65536 * b2 + 16777216 * b3) in *.
  assert ((v / 128) mod 2 = b0 / 128) as -> by (subst v; Z.to_euclidean_division_equations; lia).
  assert ((v / 32768) mod 2 = b1 / 128) as -> by (subst v; Z.to_euclidean_division_equations; lia).
  assert ((v / 8388608) mod 2 = b2 / 128) as -> by (subst v; Z.to_euclidean_division_equations; lia).
  assert ((v / 2147483648) mod 2 = b3 / 128) as -> by (subst v; Z.to_euclidean_division_equations; lia).
  (* subtraction with borrow, byte by byte *)
  set (t := (v - 16843009) mod 4294967296).
  assert (∃ c0 c1 c2 c3 k0 k1 k2 k3 : Z, 0 ≤ c0 < 256 ∧ 0 ≤ c1 < 256 ∧ 0 ≤ c2 < 256 ∧ 0 ≤ c3 < 256 ∧
    0 ≤ k0 ≤ 1 ∧ 0 ≤ k1 ≤ 1 ∧ 0 ≤ k2 ≤ 1 ∧ 0 ≤ k3 ≤ 1 ∧
    c0 = b0 - 1 + 256 * k0 ∧ c1 = b1 - 1 - k0 + 256 * k1 ∧ c2 = b2 - 1 - k1 + 256 * k2 ∧
    c3 = b3 - 1 - k2 + 256 * k3 ∧ t = c0 + 256 * c1 + 65536 * c2 + 16777216 * c3)
    as (c0&c1&c2&c3&k0&k1&k2&k3&?&?&?&?&?&?&?&?&?&?&?&?&Ht).
  { set (k0 := if decide (b0 - 1 < 0) then 1 else 0).
    set (k1 := if decide (b1 - 1 - k0 < 0) then 1 else 0).
    set (k2 := if decide (b2 - 1 - k1 < 0) then 1 else 0).
    set (k3 := if decide (b3 - 1 - k2 < 0) then 1 else 0).
    exists (b0 - 1 + 256 * k0), (b1 - 1 - k0 + 256 * k1), (b2 - 1 - k1 + 256 * k2), (b3 - 1 - k2 + 256 * k3), k0, k1, k2, k3.
    assert (t = v - 16843009 + 4294967296 * k3) as Ht.
    { symmetry. apply (Z.mod_unique_pos _ _ (- k3)); [|ring].
      subst v k0 k1 k2 k3. repeat case_decide; lia. }
    rewrite Ht. subst v k0 k1 k2 k3. clear Ht t. repeat case_decide; lia. }
  assert ((t / 128) mod 2 = c0 / 128) as -> by (rewrite Ht; Z.to_euclidean_division_equations; lia).
  assert ((t / 32768) mod 2 = c1 / 128) as -> by (rewrite Ht; Z.to_euclidean_division_equations; lia).
  assert ((t / 8388608) mod 2 = c2 / 128) as -> by (rewrite Ht; Z.to_euclidean_division_equations; lia).
  assert ((t / 2147483648) mod 2 = c3 / 128) as -> by (rewrite Ht; Z.to_euclidean_division_equations; lia).
  clearbody t. clear v Hv t Ht.
  assert (Hdiv : ∀ x, 0 ≤ x < 256 → (x / 128 = 1 ↔ 128 ≤ x)).
  { intros x Hx. Z.to_euclidean_division_equations; lia. }
  rewrite !Hdiv //. lia.
Qed.
