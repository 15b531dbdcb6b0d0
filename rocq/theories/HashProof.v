(** * Proofs about the hash functions *)
From Verif Require Export Hash BitsProof HashSpec.
Global Open Scope Z_scope.

Definition u32 (x : Z) : Prop := 0 ≤ x < 2 ^ 32.
Definition u64 (x : Z) : Prop := 0 ≤ x < 2 ^ 64.
Definition u8 (x : Z) : Prop := 0 ≤ x < 2 ^ 8.

Lemma u32_mod x : u32 (x mod 2 ^ 32).
Proof. apply Z.mod_pos_bound. lia. Qed.

Lemma lxor_range n x y : 0 ≤ n → 0 ≤ x < 2 ^ n → 0 ≤ y < 2 ^ n → 0 ≤ Z.lxor x y < 2 ^ n.
Proof.
  intros Hn Hx Hy. assert (0 ≤ Z.lxor x y) by (apply Z.lxor_nonneg; lia). split; [done|].
  destruct (decide (Z.lxor x y = 0)) as [->|]; [lia|].
  destruct (decide (n = 0)) as [->|]; [exfalso; assert (x = 0) as -> by lia; assert (y = 0) as -> by lia; done|].
  apply Z.log2_lt_pow2; [lia|].
  pose proof (Z.log2_lxor x y ltac:(lia) ltac:(lia)).
  assert (∀ z, 0 ≤ z < 2 ^ n → Z.log2 z < n) as Hl.
  { intros z Hz. destruct (decide (z = 0)) as [->|]; [simpl; lia|]. apply Z.log2_lt_pow2; lia. }
  pose proof (Hl x Hx). pose proof (Hl y Hy). lia.
Qed.
Lemma u32_lxor x y : u32 x → u32 y → u32 (Z.lxor x y).
Proof. apply lxor_range. lia. Qed.

Lemma lor_disjoint x k y : 0 ≤ k → 0 ≤ y < 2 ^ k → Z.lor (x * 2 ^ k) y = x * 2 ^ k + y.
Proof.
  intros Hk Hy. rewrite <- Z.lxor_lor.
  - symmetry. apply Z.add_nocarry_lxor.
    apply Z.bits_inj'. intros i Hi. rewrite Z.land_spec Z.bits_0.
    destruct (decide (i < k)).
    + rewrite Z.mul_pow2_bits_low //.
    + assert (Z.testbit y i = false) as ->; [|by rewrite andb_false_r].
      destruct (decide (y = 0)) as [->|]; [apply Z.bits_0|].
      apply Z.bits_above_log2; [lia|]. apply Z.log2_lt_pow2; [lia|].
      apply Z.lt_le_trans with (2 ^ k); [lia|]. apply Z.pow_le_mono_r; lia.
  - apply Z.bits_inj'. intros i Hi. rewrite Z.land_spec Z.bits_0.
    destruct (decide (i < k)).
    + rewrite Z.mul_pow2_bits_low //.
    + assert (Z.testbit y i = false) as ->; [|by rewrite andb_false_r].
      destruct (decide (y = 0)) as [->|]; [apply Z.bits_0|].
      apply Z.bits_above_log2; [lia|]. apply Z.log2_lt_pow2; [lia|].
      apply Z.lt_le_trans with (2 ^ k); [lia|]. apply Z.pow_le_mono_r; lia.
Qed.

Lemma rot_rotl x k : u32 x → 0 < k < 32 → rot x k = rotl x k.
Proof.
  intros Hx Hk. unfold rot, rotl, shl32, shr. unfold u32 in Hx.
  rewrite -> Z.shiftl_mul_pow2 by lia. rewrite -> Z.shiftr_div_pow2 by lia.
  (* (x * 2^k) mod 2^32 is a multiple of 2^k *)
  assert (Hs : 2 ^ 32 = 2 ^ (32 - k) * 2 ^ k) by (rewrite <- Z.pow_add_r by lia; f_equal; lia).
  assert (0 < 2 ^ k) by (apply Z.pow_pos_nonneg; lia).
  assert (0 < 2 ^ (32 - k)) by (apply Z.pow_pos_nonneg; lia).
  assert ((x * 2 ^ k) mod 2 ^ 32 = (x mod 2 ^ (32 - k)) * 2 ^ k) as Hm.
  { rewrite {1}Hs. rewrite Z.mul_mod_distr_r; lia. }
  rewrite Hm. apply lor_disjoint; [lia|].
  split; [apply Z.div_pos; lia|]. apply Z.div_lt_upper_bound; [lia|].
  rewrite -Hs. lia.
Qed.

Lemma rotl_u32 x k : u32 x → 0 < k < 32 → u32 (rotl x k).
Proof.
  intros Hx Hk. unfold rotl, u32 in *.
  assert (Hs : 2 ^ 32 = 2 ^ (32 - k) * 2 ^ k) by (rewrite <- Z.pow_add_r by lia; f_equal; lia).
  assert (0 < 2 ^ k) by (apply Z.pow_pos_nonneg; lia).
  assert (0 < 2 ^ (32 - k)) by (apply Z.pow_pos_nonneg; lia).
  assert ((x * 2 ^ k) mod 2 ^ 32 = (x mod 2 ^ (32 - k)) * 2 ^ k) as Hm.
  { rewrite {1}Hs. rewrite Z.mul_mod_distr_r; lia. }
  rewrite Hm.
  assert (0 ≤ x / 2 ^ (32 - k) < 2 ^ k).
  { split; [apply Z.div_pos; lia|]. apply Z.div_lt_upper_bound; [lia|]. rewrite -Hs. lia. }
  pose proof (Z.mod_pos_bound x (2 ^ (32 - k)) ltac:(lia)). nia.
Qed.

Definition u32x3 (s : Z * Z * Z) : Prop := u32 s.1.1 ∧ u32 s.1.2 ∧ u32 s.2.

Local Ltac u32_tac :=
  repeat first [ done | apply u32_mod | apply u32_lxor | (apply rotl_u32; [|lia]) ].

Lemma mix_ok s : u32x3 s → mix s = lookup3_mix s ∧ u32x3 (lookup3_mix s).
Proof.
  destruct s as [[a b] c]. intros (Ha&Hb&Hc). simpl in Ha, Hb, Hc.
  unfold mix, lookup3_mix, mix_line, sub32, add32.
  rewrite (rot_rotl c 4) //.
  set (a1 := Z.lxor ((a - c) mod 2 ^ 32) (rotl c 4)).
  assert (u32 a1) by u32_tac. clearbody a1.
  set (c1 := (c + b) mod 2 ^ 32). assert (u32 c1) by u32_tac. clearbody c1.
  rewrite (rot_rotl a1 6) //.
  set (b1 := Z.lxor ((b - a1) mod 2 ^ 32) (rotl a1 6)). assert (u32 b1) by u32_tac. clearbody b1.
  set (a2 := (a1 + c1) mod 2 ^ 32). assert (u32 a2) by u32_tac. clearbody a2.
  rewrite (rot_rotl b1 8) //.
  set (c2 := Z.lxor ((c1 - b1) mod 2 ^ 32) (rotl b1 8)). assert (u32 c2) by u32_tac. clearbody c2.
  set (b2 := (b1 + a2) mod 2 ^ 32). assert (u32 b2) by u32_tac. clearbody b2.
  rewrite (rot_rotl c2 16) //.
  set (a3 := Z.lxor ((a2 - c2) mod 2 ^ 32) (rotl c2 16)). assert (u32 a3) by u32_tac. clearbody a3.
  set (c3 := (c2 + b2) mod 2 ^ 32). assert (u32 c3) by u32_tac. clearbody c3.
  rewrite (rot_rotl a3 19) //.
  set (b3 := Z.lxor ((b2 - a3) mod 2 ^ 32) (rotl a3 19)). assert (u32 b3) by u32_tac. clearbody b3.
  set (a4 := (a3 + c3) mod 2 ^ 32). assert (u32 a4) by u32_tac. clearbody a4.
  rewrite (rot_rotl b3 4) //.
  set (c4 := Z.lxor ((c3 - b3) mod 2 ^ 32) (rotl b3 4)). assert (u32 c4) by u32_tac. clearbody c4.
  set (b4 := (b3 + a4) mod 2 ^ 32). assert (u32 b4) by u32_tac. clearbody b4.
  by split.
Qed.

Lemma final_ok s : u32x3 s → final s = lookup3_final s ∧ u32x3 (lookup3_final s).
Proof.
  destruct s as [[a b] c]. intros (Ha&Hb&Hc). simpl in Ha, Hb, Hc.
  unfold final, lookup3_final, final_line, sub32.
  rewrite (rot_rotl b 14) //.
  set (c1 := (Z.lxor c b - rotl b 14) mod 2 ^ 32). assert (u32 c1) by u32_tac. clearbody c1.
  rewrite (rot_rotl c1 11) //.
  set (a1 := (Z.lxor a c1 - rotl c1 11) mod 2 ^ 32). assert (u32 a1) by u32_tac. clearbody a1.
  rewrite (rot_rotl a1 25) //.
  set (b1 := (Z.lxor b a1 - rotl a1 25) mod 2 ^ 32). assert (u32 b1) by u32_tac. clearbody b1.
  rewrite (rot_rotl b1 16) //.
  set (c2 := (Z.lxor c1 b1 - rotl b1 16) mod 2 ^ 32). assert (u32 c2) by u32_tac. clearbody c2.
  rewrite (rot_rotl c2 4) //.
  set (a2 := (Z.lxor a1 c2 - rotl c2 4) mod 2 ^ 32). assert (u32 a2) by u32_tac. clearbody a2.
  rewrite (rot_rotl a2 14) //.
  set (b2 := (Z.lxor b1 a2 - rotl a2 14) mod 2 ^ 32). assert (u32 b2) by u32_tac. clearbody b2.
  rewrite (rot_rotl b2 24) //.
  set (c3 := (Z.lxor c2 b2 - rotl b2 24) mod 2 ^ 32). assert (u32 c3) by u32_tac. clearbody c3.
  by split.
Qed.

(** ** Reading the key *)

(** The bytes [bs] are in memory from address [key]. *)
Definition bytes_at (m : mem) (key : Z) (bs : list Z) : Prop :=
  ∀ i b, bs !! i = Some b → m !! (key + Z.of_nat i) = Some (B b).

Lemma bytes_at_drop m key bs n : bytes_at m key bs → bytes_at m (key + Z.of_nat n) (drop n bs).
Proof.
  intros H i b Hi. rewrite lookup_drop in Hi. apply H in Hi. rewrite -Hi. f_equal. lia.
Qed.

Lemma bytes_at_app_l m key bs cs : bytes_at m key (bs ++ cs) → bytes_at m key bs.
Proof. intros H i b Hi. apply H. by apply lookup_app_l_Some. Qed.

Lemma loadb_at m key bs (i : nat) z b :
  bytes_at m key bs → bs !! i = Some b → z = Z.of_nat i → loadb (key + z) m = Ok b m.
Proof. intros H Hi ->. unfold loadb. by rewrite (H _ _ Hi). Qed.

Lemma bind_ok {A B} (c : M A) (k : A → M B) m v : c m = Ok v m → (c ≫= k) m = k v m.
Proof. intros H. unfold mbind, M_bind. by rewrite H. Qed.

Lemma le_sum b0 b1 b2 b3 : u8 b0 → u8 b1 → u8 b2 → u8 b3 →
  add32 (add32 (add32 b0 (shl32 b1 8)) (shl32 b2 16)) (shl32 b3 24) =
  b0 + 2 ^ 8 * b1 + 2 ^ 16 * b2 + 2 ^ 24 * b3.
Proof.
  unfold u8. intros. unfold add32, shl32. rewrite !Z.shiftl_mul_pow2 //.
  rewrite -> (Z.mod_small (b1 * 2 ^ 8)) by lia. rewrite -> (Z.mod_small (b2 * 2 ^ 16)) by lia.
  rewrite -> (Z.mod_small (b3 * 2 ^ 24)) by lia. rewrite -> (Z.mod_small (b0 + _)) by lia.
  rewrite -> (Z.mod_small (b0 + b1 * 2 ^ 8 + _)) by lia. rewrite -> Z.mod_small by lia. lia.
Qed.

Lemma le_read_portable m key b0 b1 b2 b3 :
  u8 b0 → u8 b1 → u8 b2 → u8 b3 → bytes_at m key [b0; b1; b2; b3] →
  le_uint32_read_portable key m = Ok (b0 + 2 ^ 8 * b1 + 2 ^ 16 * b2 + 2 ^ 24 * b3) m.
Proof.
  intros H0 H1 H2 H3 Hm. unfold le_uint32_read_portable.
  assert (L0 : loadb (key + 0) m = Ok b0 m) by (by eapply (loadb_at _ _ _ 0)).
  assert (L1 : loadb (key + 1) m = Ok b1 m) by (by eapply (loadb_at _ _ _ 1)).
  assert (L2 : loadb (key + 2) m = Ok b2 m) by (by eapply (loadb_at _ _ _ 2)).
  assert (L3 : loadb (key + 3) m = Ok b3 m) by (by eapply (loadb_at _ _ _ 3)).
  rewrite (bind_ok _ _ _ _ L0) (bind_ok _ _ _ _ L1) (bind_ok _ _ _ _ L2) (bind_ok _ _ _ _ L3).
  unfold mret, M_ret. by rewrite le_sum.
Qed.

Lemma le_read_x86 m key b0 b1 b2 b3 :
  u8 b0 → u8 b1 → u8 b2 → u8 b3 → bytes_at m key [b0; b1; b2; b3] →
  le_uint32_read_x86 key m = Ok (b0 + 2 ^ 8 * b1 + 2 ^ 16 * b2 + 2 ^ 24 * b3) m.
Proof.
  intros H0 H1 H2 H3 Hm. unfold le_uint32_read_x86.
  assert (L0 : loadb key m = Ok b0 m).
  { replace key with (key + 0) by lia. by eapply (loadb_at _ _ _ 0). }
  assert (L1 : loadb (key + 1) m = Ok b1 m) by (by eapply (loadb_at _ _ _ 1)).
  assert (L2 : loadb (key + 2) m = Ok b2 m) by (by eapply (loadb_at _ _ _ 2)).
  assert (L3 : loadb (key + 3) m = Ok b3 m) by (by eapply (loadb_at _ _ _ 3)).
  rewrite (bind_ok _ _ _ _ L0) (bind_ok _ _ _ _ L1) (bind_ok _ _ _ _ L2) (bind_ok _ _ _ _ L3).
  unfold mret, M_ret. f_equal. unfold u8 in *.
  rewrite !Z.shiftl_mul_pow2 //.
  rewrite (Z.lor_comm (b2 * _)). rewrite -> (lor_disjoint b3 24) by lia.
  replace (b3 * 2 ^ 24 + b2 * 2 ^ 16) with ((b3 * 2 ^ 8 + b2) * 2 ^ 16) by lia.
  rewrite (Z.lor_comm (b1 * _)). rewrite -> lor_disjoint by lia.
  replace ((b3 * 2 ^ 8 + b2) * 2 ^ 16 + b1 * 2 ^ 8) with ((b3 * 2 ^ 16 + b2 * 2 ^ 8 + b1) * 2 ^ 8) by lia.
  rewrite (Z.lor_comm b0). rewrite -> lor_disjoint by lia. lia.
Qed.

Section hash.
Variable x86 : bool.

Lemma le_read_ok m key bs b0 b1 b2 b3 (i : nat) z :
  bytes_at m key bs → Forall u8 bs → z = Z.of_nat i →
  bs !! i = Some b0 → bs !! (i + 1)%nat = Some b1 →
  bs !! (i + 2)%nat = Some b2 → bs !! (i + 3)%nat = Some b3 →
  le_uint32_read x86 (key + z) m = Ok (b0 + 2 ^ 8 * b1 + 2 ^ 16 * b2 + 2 ^ 24 * b3) m.
Proof.
  intros Hm Hu -> H0 H1 H2 H3. unfold le_uint32_read.
  assert (L : bytes_at m (key + Z.of_nat i) [b0; b1; b2; b3]).
  { intros [|[|[|[|j]]]] b Hj; simpl in Hj; simplify_eq; rewrite -Z.add_assoc -Nat2Z.inj_add; apply Hm; [by rewrite Nat.add_0_r|done..]. }
  rewrite Forall_forall in Hu.
  destruct x86; [apply le_read_x86|apply le_read_portable]; try done; apply Hu; by eapply elem_of_list_lookup_2.
Qed.

(** ** Words and blocks of a list *)
Lemma byte_at_lookup bs i b : bs !! i = Some b → byte_at bs i = b.
Proof. intros H. unfold byte_at. rewrite nth_lookup H. done. Qed.
Lemma byte_at_drop bs n i : byte_at (drop n bs) i = byte_at bs (n + i).
Proof. unfold byte_at. by rewrite !nth_lookup lookup_drop. Qed.
Lemma word_at_drop bs n i : word_at (drop (4 * n) bs) i = word_at bs (n + i).
Proof.
  unfold word_at. rewrite !byte_at_drop.
  repeat first [ f_equal; try lia ].
Qed.
Lemma add_block_drop bs n s k : add_block (drop (12 * n) bs) s k = add_block bs s (n + k).
Proof.
  destruct s as [[a b] c]. unfold add_block.
  replace (12 * n)%nat with (4 * (3 * n))%nat by lia. rewrite !word_at_drop.
  replace (3 * n + 3 * k)%nat with (3 * (n + k))%nat by lia.
  replace (3 * n + (3 * k + 1))%nat with (3 * (n + k) + 1)%nat by lia.
  by replace (3 * n + (3 * k + 2))%nat with (3 * (n + k) + 2)%nat by lia.
Qed.
Lemma add_block_u32 bs s k : u32x3 (add_block bs s k).
Proof. destruct s as [[a b] c]. split; [|split]; apply u32_mod. Qed.

Lemma fold_left_seq_shift {A} (f : A → nat → A) a n s :
  fold_left f (seq a n) s = fold_left (λ s k, f s (a + k)%nat) (seq 0 n) s.
Proof.
  assert (seq a n = Nat.add a <$> seq 0 n) as -> by (by rewrite fmap_add_seq Nat.add_0_r).
  revert s. generalize (seq 0 n). intros l.
  induction l as [|x l IH]; intros t; [done|]. cbn [fold_left]. rewrite -IH. done.
Qed.

Lemma mix_blocks_S bs n s :
  mix_blocks bs (S n) s = mix_blocks (drop 12 bs) n (lookup3_mix (add_block bs s 0)).
Proof.
  unfold mix_blocks. simpl seq. simpl fold_left. rewrite fold_left_seq_shift.
  generalize (lookup3_mix (add_block bs s 0)). generalize (seq 0 n). intros l.
  induction l as [|x l IH]; intros t; [done|]. cbn [fold_left].
  rewrite (add_block_drop bs 1 t x). apply IH.
Qed.

Lemma mix_blocks_u32 bs n s : u32x3 s → u32x3 (mix_blocks bs n s).
Proof.
  revert bs s. induction n as [|n IH]; intros bs s Hs; [done|].
  rewrite mix_blocks_S. apply IH. apply mix_ok, add_block_u32.
Qed.

Lemma bytes_at_lookup12 m key bs : bytes_at m key bs → Forall u8 bs → (12 ≤ length bs)%nat →
  le_uint32_read x86 (key + 0) m = Ok (word_at bs 0) m ∧
  le_uint32_read x86 (key + 4) m = Ok (word_at bs 1) m ∧
  le_uint32_read x86 (key + 8) m = Ok (word_at bs 2) m.
Proof.
  intros Hm Hu Hl.
  do 12 (destruct bs as [|? bs]; [simpl in Hl; lia|]).
  split; [|split].
  - by eapply (le_read_ok _ _ _ _ _ _ _ 0).
  - by eapply (le_read_ok _ _ _ _ _ _ _ 4).
  - by eapply (le_read_ok _ _ _ _ _ _ _ 8).
Qed.

Lemma hash_loop_ok n m key bs s fuel :
  bytes_at m key bs → Forall u8 bs → Z.of_nat (length bs) < 2 ^ 64 → u32x3 s →
  n = Nat.div (length bs - 1) 12 → (n ≤ fuel)%nat →
  hash_loop x86 fuel s key (Z.of_nat (length bs)) m =
  Ok ((mix_blocks bs n s).1.1, (mix_blocks bs n s).1.2, (mix_blocks bs n s).2,
      key + 12 * Z.of_nat n, Z.of_nat (length (drop (12 * n) bs))) m.
Proof.
  revert key bs s fuel. induction n as [|n IH]; intros key bs s fuel Hm Hu Hlen Hs Hn Hf.
  - assert (length bs - 1 < 12)%nat by (by apply Nat.div_small_iff).
    destruct s as [[a b] c]. destruct fuel; simpl hash_loop.
    + rewrite -> decide_False by lia. simpl. unfold mret, M_ret. by rewrite Z.add_0_r drop_0.
    + rewrite -> decide_False by lia. simpl. unfold mret, M_ret. by rewrite Z.add_0_r drop_0.
  - assert (Hl : (12 < length bs)%nat).
    { destruct (decide (12 < length bs)%nat); [done|]. rewrite Nat.div_small in Hn; lia. }
    destruct fuel as [|fuel]; [lia|]. destruct s as [[a b] c]. cbn [hash_loop].
    rewrite -> decide_True by lia.
    destruct (bytes_at_lookup12 m key bs) as (R0&R4&R8); [done|done|lia|].
    rewrite (bind_ok _ _ _ _ R0) (bind_ok _ _ _ _ R4) (bind_ok _ _ _ _ R8).
    unfold sub64. rewrite -> Z.mod_small by lia.
    replace (Z.of_nat (length bs) - 12) with (Z.of_nat (length (drop 12 bs))) by (rewrite drop_length; lia).
    assert (Hadd : (add32 a (word_at bs 0), add32 b (word_at bs 1), add32 c (word_at bs 2)) = add_block bs (a, b, c) 0) by done.
    rewrite Hadd. destruct (mix_ok (add_block bs (a, b, c) 0)) as [Hmix Hmix']; [apply add_block_u32|].
    rewrite Hmix. rewrite -> (IH (key + 12)).
    + rewrite mix_blocks_S. rewrite drop_drop. do 2 f_equal; [f_equal; lia|]. do 3 f_equal. lia.
    + apply (bytes_at_drop _ _ _ 12%nat Hm).
    + by apply Forall_drop.
    + rewrite drop_length. lia.
    + done.
    + rewrite drop_length. replace (length bs - 12 - 1)%nat with (length bs - 1 - 1 * 12)%nat by lia.
      assert (length bs - 1 = (length bs - 1 - 1 * 12) + 1 * 12)%nat as Heq by lia.
      rewrite {1}Heq in Hn. rewrite -> Nat.div_add in Hn by lia. lia.
    + lia.
Qed.

Lemma add32_add32 x y z : add32 (add32 x y) z = add32 x (y + z).
Proof. unfold add32. rewrite Zplus_mod_idemp_l. f_equal. lia. Qed.
Lemma add32_shl x b k : 0 ≤ k → u8 b → k ≤ 24 → add32 x (shl32 b k) = add32 x (b * 2 ^ k).
Proof. intros. unfold add32, shl32. rewrite -> Z.shiftl_mul_pow2 by lia. by rewrite Zplus_mod_idemp_r. Qed.

Definition hash_case (n : nat) : Z → Z * Z * Z → M (Z * Z * Z) :=
  match n with
  | 1 => case_1 | 2 => case_2 | 3 => case_3 | 4 => case_4 x86 | 5 => case_5 x86 | 6 => case_6 x86
  | 7 => case_7 x86 | 8 => case_8 x86 | 9 => case_9 x86 | 10 => case_10 x86 | 11 => case_11 x86 | 12 => case_12 x86
  | _ => λ _ abc, mret abc
  end%nat.
Lemma hash_switch_eq abc key n : hash_switch x86 abc key (Z.of_nat n) = hash_case n key abc.
Proof.
  do 13 (destruct n as [|n]; [reflexivity|]). unfold hash_switch.
  repeat (rewrite -> decide_False by lia). done.
Qed.

(** Every length of the last block *)
Lemma hash_switch_ok m key bs s :
  bytes_at m key bs → Forall u8 bs → (0 < length bs ≤ 12)%nat → u32x3 s →
  hash_switch x86 s key (Z.of_nat (length bs)) m = Ok (add_block bs s 0) m.
Proof.
  intros Hm Hu Hl (Ha&Hb&Hc). destruct s as [[a b] c]. cbn [fst snd] in *.
  assert (Hs : ∀ x, u32 x → add32 x 0 = x).
  { intros x Hx. unfold add32. rewrite Z.add_0_r. by apply Z.mod_small. }
  assert (L : ∀ i d, bs !! i = Some d → loadb (key + Z.of_nat i) m = Ok d m).
  { intros. by apply Hm in H as Hk; unfold loadb; rewrite Hk. }
  assert (Hr : ∀ i b0 b1 b2 b3, bs !! i = Some b0 → bs !! (i + 1)%nat = Some b1 →
    bs !! (i + 2)%nat = Some b2 → bs !! (i + 3)%nat = Some b3 →
    le_uint32_read x86 (key + Z.of_nat i) m = Ok (b0 + 2 ^ 8 * b1 + 2 ^ 16 * b2 + 2 ^ 24 * b3) m).
  { intros. by eapply le_read_ok. }
  destruct bs as [|x0 bs]; [simpl in Hl; lia|].
  do 11 (destruct bs as [|? bs]; [
    repeat match goal with H : Forall u8 (_ :: _) |- _ => apply Forall_cons in H as [? H] end;
    rewrite hash_switch_eq; cbn [length hash_case];
    unfold case_12, case_11, case_10, case_9, case_8, case_7, case_6, case_5, case_4, case_3, case_2, case_1;
    repeat first
      [ rewrite (bind_ok _ _ _ _ (L 10%nat _ eq_refl)) | rewrite (bind_ok _ _ _ _ (L 9%nat _ eq_refl))
      | rewrite (bind_ok _ _ _ _ (L 8%nat _ eq_refl)) | rewrite (bind_ok _ _ _ _ (L 6%nat _ eq_refl))
      | rewrite (bind_ok _ _ _ _ (L 5%nat _ eq_refl)) | rewrite (bind_ok _ _ _ _ (L 4%nat _ eq_refl))
      | rewrite (bind_ok _ _ _ _ (L 2%nat _ eq_refl)) | rewrite (bind_ok _ _ _ _ (L 1%nat _ eq_refl))
      | rewrite (bind_ok _ _ _ _ (L 0%nat _ eq_refl))
      | rewrite (bind_ok _ _ _ _ (Hr 0%nat _ _ _ _ eq_refl eq_refl eq_refl eq_refl))
      | rewrite (bind_ok _ _ _ _ (Hr 4%nat _ _ _ _ eq_refl eq_refl eq_refl eq_refl))
      | rewrite (bind_ok _ _ _ _ (Hr 8%nat _ _ _ _ eq_refl eq_refl eq_refl eq_refl)) ];
    unfold mret, M_ret, add_block, word_at, byte_at; simpl nth;
    repeat (rewrite -> add32_shl by (done || lia)); rewrite ?add32_add32;
    apply (f_equal (λ x, Ok x m)); apply f_equal2; [apply f_equal2|];
    solve [unfold add32; f_equal; lia | etrans; [symmetry; apply Hs; eassumption|]; unfold add32; f_equal; lia]
  |]).
  destruct bs as [|? bs]; [|simpl in Hl; lia].
  rewrite hash_switch_eq. cbn [length hash_case]. unfold case_12.
  rewrite (bind_ok _ _ _ _ (Hr 8%nat _ _ _ _ eq_refl eq_refl eq_refl eq_refl)).
  rewrite (bind_ok _ _ _ _ (Hr 4%nat _ _ _ _ eq_refl eq_refl eq_refl eq_refl)).
  rewrite (bind_ok _ _ _ _ (Hr 0%nat _ _ _ _ eq_refl eq_refl eq_refl eq_refl)).
  done.
Qed.

Lemma hash_tail_len (len n : nat) : n = Nat.div (len - 1) 12 → (0 < len)%nat →
  (0 < len - 12 * n ≤ 12)%nat.
Proof.
  intros -> Hl. pose proof (Nat.div_mod (len - 1) 12 ltac:(lia)).
  pose proof (Nat.mod_upper_bound (len - 1) 12 ltac:(lia)). lia.
Qed.

Lemma lookup3_core_ne bs s : bs ≠ [] →
  lookup3_core bs s = lookup3_final (add_block bs (mix_blocks bs (Nat.div (length bs - 1) 12) s) (Nat.div (length bs - 1) 12)).
Proof. by destruct bs. Qed.

Lemma hash_common m key bs s fuel (K : Z * Z * Z → Z) :
  bytes_at m key bs → Forall u8 bs → Z.of_nat (length bs) < 2 ^ 64 → u32x3 s →
  (length bs ≤ 12 * fuel + 12)%nat →
  (let '(a, b, c) := s in
   '(a, b, c, key, key_len) ← hash_loop x86 fuel (a, b, c) key (Z.of_nat (length bs));
   if decide (key_len = 0) then mret (K (a, b, c)) else
   abc ← hash_switch x86 (a, b, c) key key_len;
   mret (K (final abc))) m = Ok (K (lookup3_core bs s)) m.
Proof.
  intros Hm Hu Hl Hs Hf. destruct s as [[a b] c].
  set (n := Nat.div (length bs - 1) 12).
  assert (Hnf : (n ≤ fuel)%nat).
  { unfold n. destruct (decide (length bs = 0)%nat) as [->|]; [simpl; lia|].
    apply Nat.lt_succ_r. apply Nat.div_lt_upper_bound; lia. }
  rewrite (bind_ok _ _ _ _ (hash_loop_ok n m key bs (a, b, c) fuel Hm Hu Hl Hs eq_refl Hnf)).
  pose proof (mix_blocks_u32 bs n _ Hs) as Hmu.
  case_decide as Hz.
  - rewrite drop_length in Hz.
    assert (length bs = 0)%nat as H0.
    { destruct (decide (length bs = 0)%nat) as [|]; [done|].
      pose proof (hash_tail_len (length bs) n eq_refl ltac:(lia)). lia. }
    apply nil_length_inv in H0. subst bs. done.
  - assert (bs ≠ []) as Hne by (intros ->; by rewrite drop_nil in Hz).
    assert (Hlen : (0 < length bs)%nat) by (destruct bs; simpl; [done|lia]).
    pose proof (hash_tail_len (length bs) n eq_refl Hlen) as Ht.
    replace (key + 12 * Z.of_nat n) with (key + Z.of_nat (12 * n)) by lia.
    rewrite -!surjective_pairing.
    rewrite (bind_ok _ _ _ _ (hash_switch_ok m (key + Z.of_nat (12 * n)) (drop (12 * n) bs) (mix_blocks bs n (a, b, c))
      (bytes_at_drop _ _ _ _ Hm) (Forall_drop _ _ _ Hu) ltac:(rewrite drop_length; lia) Hmu)).
    rewrite add_block_drop Nat.add_0_r.
    destruct (final_ok (add_block bs (mix_blocks bs n (a, b, c)) n)) as [-> _]; [apply add_block_u32|].
    rewrite lookup3_core_ne //.
Qed.

Lemma lookup3_core_u32 bs s : u32x3 s → u32x3 (lookup3_core bs s).
Proof.
  intros Hs. destruct bs as [|x bs]; [done|].
  rewrite lookup3_core_ne //. apply final_ok, add_block_u32.
Qed.

Lemma seed32 len init : u32 init →
  add32 (add32 0xdeadbeef (wrap32 len)) init = (0xdeadbeef + len + init) mod 2 ^ 32.
Proof.
  intros. unfold add32, wrap32. rewrite Zplus_mod_idemp_l -Z.add_assoc (Z.add_comm (_ mod _)) Z.add_assoc.
  rewrite Zplus_mod_idemp_r. f_equal. lia.
Qed.

Lemma hash_u32_ok m key bs init fuel :
  bytes_at m key bs → Forall u8 bs → Z.of_nat (length bs) < 2 ^ 64 → u32 init →
  (length bs ≤ 12 * fuel + 12)%nat →
  hash_u32 x86 fuel init key (Z.of_nat (length bs)) m = Ok (hashlittle init bs) m.
Proof.
  intros Hm Hu Hl Hi Hf. unfold hash_u32, hashlittle. rewrite seed32 //.
  set (x := (_ mod _)%Z).
  pose proof (hash_common m key bs (x, x, x) fuel (λ abc, abc.2) Hm Hu Hl) as H.
  specialize (H ltac:(split; [|split]; apply u32_mod) Hf).
  destruct (lookup3_core bs (x, x, x)) as [[a b] c]. cbn [snd] in H. rewrite -H.
  unfold mbind, M_bind. destruct (hash_loop x86 _ _ _ _ _) as [[[[[a' b'] c'] k'] l'] m'| | |]; try done.
  case_decide; [done|]. destruct (hash_switch x86 _ _ _ _) as [abc m''| | |]; try done.
  by destruct (final abc) as [[? ?] ?].
Qed.

Lemma hash_u64_ok m key bs init fuel :
  bytes_at m key bs → Forall u8 bs → Z.of_nat (length bs) < 2 ^ 64 → u64 init →
  (length bs ≤ 12 * fuel + 12)%nat →
  hash_u64 x86 fuel init key (Z.of_nat (length bs)) m = Ok (hashlittle2 init bs) m.
Proof.
  intros Hm Hu Hl Hi Hf. unfold hash_u64, hashlittle2. unfold u64 in Hi.
  change 0xffffffff with (2 ^ 32 - 1). rewrite land_ones_mod //. unfold shr. rewrite Z.shiftr_div_pow2 //.
  assert (Hpc : u32 (init mod 2 ^ 32)) by apply u32_mod.
  assert (Hpb : u32 (init / 2 ^ 32)).
  { split; [apply Z.div_pos; lia|]. apply Z.div_lt_upper_bound; lia. }
  assert (Ha : wrap32 (add64 (add32 0xdeadbeef (wrap32 (Z.of_nat (length bs)))) (init mod 2 ^ 32)) =
    (0xdeadbeef + Z.of_nat (length bs) + init mod 2 ^ 32) mod 2 ^ 32).
  { rewrite -seed32 //. unfold wrap32, add64, add32.
    rewrite (Z.mod_small _ (2 ^ 64)); [|done].
    pose proof (u32_mod (0xdeadbeef + Z.of_nat (length bs) mod 2 ^ 32)). unfold u32 in *. lia. }
  rewrite Ha. set (x := ((_ + _ + _) mod _)%Z).
  assert (Hx : u32 x) by apply u32_mod.
  assert (Hc : wrap32 (add64 x (init / 2 ^ 32)) = (x + init / 2 ^ 32) mod 2 ^ 32).
  { unfold wrap32, add64. unfold u32 in *. rewrite (Z.mod_small _ (2 ^ 64)); [lia|done]. }
  rewrite Hc. set (y := (x + init / 2 ^ 32) mod 2 ^ 32).
  assert (Hy : u32 y) by apply u32_mod.
  pose proof (hash_common m key bs (x, x, y) fuel (λ abc, add64 abc.2 (shl64 abc.1.2 32)) Hm Hu Hl) as H.
  specialize (H ltac:(by split; [|split]) Hf).
  pose proof (lookup3_core_u32 bs (x, x, y) ltac:(by split; [|split])) as Hcu.
  destruct (lookup3_core bs (x, x, y)) as [[a b] c]. cbn [fst snd] in H, Hcu.
  destruct Hcu as (_&Hbu&Hcu). cbn [fst snd] in *.
  assert (add64 c (shl64 b 32) = c + 2 ^ 32 * b) as Hr.
  { unfold add64, shl64. unfold u32 in *. rewrite -> Z.shiftl_mul_pow2 by lia.
    rewrite -> (Z.mod_small (b * 2 ^ 32)) by lia. rewrite -> Z.mod_small by lia. lia. }
  rewrite -Hr -H.
  unfold mbind, M_bind. destruct (hash_loop x86 _ _ _ _ _) as [[[[[a' b'] c'] k'] l'] m'| | |]; try done.
  case_decide; [done|]. destruct (hash_switch x86 _ _ _ _) as [abc m''| | |]; try done.
  by destruct (final abc) as [[? ?] ?].
Qed.

(** ** strhash *)

Lemma word_bytes b0 b1 b2 b3 : u8 b0 → u8 b1 → u8 b2 → u8 b3 →
  let v := b0 + 2 ^ 8 * b1 + 2 ^ 16 * b2 + 2 ^ 24 * b3 in
  0 ≤ v < 2 ^ 32 ∧ BitsProof.byte_of v 0 = b0 ∧ BitsProof.byte_of v 1 = b1 ∧
  BitsProof.byte_of v 2 = b2 ∧ BitsProof.byte_of v 3 = b3.
Proof.
  unfold u8, byte_of. intros. change (2 ^ (8 * 0)) with 1. change (2 ^ (8 * 1)) with 256.
  change (2 ^ (8 * 2)) with 65536. change (2 ^ (8 * 3)) with 16777216. change (2 ^ 8) with 256 in *.
  change (2 ^ 16) with 65536 in *. change (2 ^ 24) with 16777216 in *.
  repeat split; try (Z.to_euclidean_division_equations; lia).
Qed.

(** Masks are bytes *)
Lemma land_byte v k : 0 ≤ k → 0 ≤ v → Z.land v (255 * 2 ^ (8 * k)) = byte_of v k * 2 ^ (8 * k).
Proof.
  intros Hk Hv. unfold byte_of. rewrite -Z.shiftr_div_pow2; [lia|].
  rewrite -(Z.land_ones _ 8) // -!Z.shiftl_mul_pow2; [lia|lia|].
  change 255 with (Z.ones 8).
  apply Z.bits_inj'. intros i Hi. rewrite Z.land_spec !Z.shiftl_spec //.
  destruct (decide (i < 8 * k)).
  - rewrite !(Z.testbit_neg_r _ (i - 8 * k)); [lia..|]. by rewrite andb_false_r.
  - rewrite Z.land_spec. rewrite -> Z.shiftr_spec by lia. do 2 f_equal. lia.
Qed.

Lemma strhash_tail_ok x b0 b1 b2 b3 (t : list Z) junk :
  u32 x → u8 b0 → u8 b1 → u8 b2 → u8 b3 → Forall (λ b, b ≠ 0) t → (length t < 4)%nat →
  t ++ 0 :: junk = [b0; b1; b2; b3] →
  strhash_tail x (b0 + 2 ^ 8 * b1 + 2 ^ 16 * b2 + 2 ^ 24 * b3) = add32 x (word_at t 0).
Proof.
  intros Hx H0 H1 H2 H3 Ht Hlen Heq.
  destruct (word_bytes b0 b1 b2 b3) as (Hv&B0&B1&B2&B3); [done..|].
  set (v := b0 + _ + _ + _) in *.
  assert (M0 : Z.land v 0xff = b0).
  { rewrite (land_byte v 0); [lia..|]. rewrite B0. lia. }
  assert (M1 : Z.land v 0xff00 = b1 * 2 ^ 8).
  { rewrite (land_byte v 1); [lia..|]. rewrite B1. lia. }
  assert (M2 : Z.land v 0xff0000 = b2 * 2 ^ 16).
  { rewrite (land_byte v 2); [lia..|]. rewrite B2. lia. }
  assert (Hs : add32 x 0 = x).
  { unfold add32. rewrite Z.add_0_r. by apply Z.mod_small. }
  unfold strhash_tail. rewrite M0 M1 M2. unfold word_at, byte_at.
  destruct t as [|t0 t]; [|apply Forall_cons in Ht as [Ht0 Ht]]; simpl in Heq.
  { injection Heq as <- ?. rewrite -> decide_False by lia. simpl. by rewrite Hs. }
  injection Heq as -> Heq. rewrite -> (decide_True (P:=b0 ≠ 0)) by lia.
  destruct t as [|t1 t]; [|apply Forall_cons in Ht as [Ht1 Ht]]; simpl in Heq.
  { injection Heq as <- ?. rewrite -> decide_False by lia. simpl. unfold add32. f_equal. lia. }
  injection Heq as -> Heq. rewrite -> (decide_True (P:=b1 * 2 ^ 8 ≠ 0)) by lia.
  destruct t as [|t2 t]; [|apply Forall_cons in Ht as [Ht2 Ht]]; simpl in Heq.
  { injection Heq as <- ?. rewrite -> decide_False by lia. simpl. rewrite add32_add32. unfold add32. f_equal. lia. }
  injection Heq as -> Heq. rewrite -> (decide_True (P:=b2 * 2 ^ 16 ≠ 0)) by lia.
  destruct t as [|t3 t]; [|simpl in Hlen; lia].
  simpl. rewrite !add32_add32. unfold add32. f_equal. lia.
Qed.

(** One word of the string: complete, or holding the terminator. *)
Lemma str_word m key (t junk : list Z) :
  bytes_at m key (t ++ 0 :: junk) → Forall u8 (t ++ 0 :: junk) → Forall (λ b, b ≠ 0) t →
  (4 ≤ length (t ++ 0%Z :: junk))%nat →
  ∃ v, le_uint32_read x86 key m = Ok v m ∧
    haszero_u32 v = bool_decide (length t < 4)%nat ∧
    ((4 ≤ length t)%nat → v = word_at t 0) ∧
    ((length t < 4)%nat → ∀ x, u32 x → strhash_tail x v = add32 x (word_at t 0)).
Proof.
  intros Hm Hu Hnz Hlen.
  destruct (t ++ 0 :: junk) as [|b0 [|b1 [|b2 [|b3 rest]]]] eqn:Heq; try (simpl in Hlen; lia).
  exists (b0 + 2 ^ 8 * b1 + 2 ^ 16 * b2 + 2 ^ 24 * b3). split.
  { replace key with (key + 0) by lia. by eapply (le_read_ok _ _ _ _ _ _ _ 0). }
  assert (Hu' := Hu).
  do 4 (apply Forall_cons in Hu' as [? Hu']).
  destruct (word_bytes b0 b1 b2 b3) as (Hv&B0&B1&B2&B3); [done..|].
  destruct (decide (length t < 4)%nat) as [Hlt|Hge].
  - assert (Heq4 : ∃ junk', t ++ 0 :: junk' = [b0; b1; b2; b3]).
    { exists (take (3 - length t) junk).
      assert (take 4 (t ++ 0 :: junk) = [b0; b1; b2; b3]) as <- by by rewrite Heq.
      rewrite take_app_ge; [lia|]. f_equal.
      replace (4 - length t)%nat with (S (3 - length t)) by lia. done. }
    destruct Heq4 as [junk' Heq4]. split; [|split; [lia|]].
    + rewrite bool_decide_eq_true_2 //. apply haszero_ok; [done|].
      rewrite B0 B1 B2 B3.
      destruct t as [|? [|? [|? [|? ?]]]]; simpl in *; simplify_eq; auto; lia.
    + intros _ x Hx. by eapply strhash_tail_ok.
  - destruct t as [|t0 [|t1 [|t2 [|t3 t]]]]; try (simpl in Hge; lia).
    simpl in Heq. injection Heq as -> -> -> -> Heq.
    do 4 (apply Forall_cons in Hnz as [? Hnz]).
    split; [|split; [|simpl; lia]].
    + rewrite bool_decide_eq_false_2 //. apply not_true_iff_false. intros Hz.
      apply haszero_ok in Hz; [|done]. rewrite B0 B1 B2 B3 in Hz. naive_solver.
    + done.
Qed.

Lemma strhash_loop_ok n m key s junk abc fuel :
  bytes_at m key (s ++ 0 :: junk) → Forall u8 (s ++ 0 :: junk) → Forall (λ b, b ≠ 0) s →
  (4 * (Nat.div (length s) 4 + 1) ≤ length (s ++ 0%Z :: junk))%nat → u32x3 abc →
  n = Nat.div (length s) 12 → (n < fuel)%nat →
  strhash_loop x86 fuel abc key m = Ok (add_block s (mix_blocks s n abc) n) m.
Proof.
  revert key s abc fuel. induction n as [|n IH]; intros key s abc fuel Hm Hu Hnz Hlen Habc Hn Hf.
  - assert (length s < 12)%nat by (by apply Nat.div_small_iff).
    destruct fuel as [|fuel]; [lia|]. destruct abc as [[a b] c]. cbn [strhash_loop].
    destruct Habc as (Ha&Hb&Hc). cbn [fst snd] in *.
    assert (Hs : ∀ x, u32 x → add32 x 0 = x).
    { intros x Hx. unfold add32. rewrite Z.add_0_r. by apply Z.mod_small. }
    destruct (str_word m key s junk) as (v&Hr&Hz&Hv1&Hv2); [done..|lia|].
    rewrite (bind_ok _ _ _ _ Hr) Hz. case_bool_decide as Hlt.
    { rewrite Hv2 //. unfold mret, M_ret. unfold mix_blocks. simpl fold_left. unfold add_block.
      do 3 f_equal.
      - unfold word_at, byte_at. symmetry. etrans; [|by apply Hs]. unfold add32. f_equal. f_equal.
        rewrite !nth_overflow; simpl; lia.
      - unfold word_at, byte_at. symmetry. etrans; [|by apply Hs]. unfold add32. f_equal. f_equal.
        rewrite !nth_overflow; simpl; lia. }
    assert (Hq : (4 ≤ length s)%nat) by lia. clear Hlt.
    rewrite Hv1 // in Hr |- *. clear Hv1 Hv2 Hz v Hr.
    assert (Hdrop : drop 4 (s ++ 0 :: junk) = drop 4 s ++ 0 :: junk) by (apply drop_app_le; lia).
    assert (Hd1 : (1 ≤ Nat.div (length s) 4)%nat) by (apply Nat.div_le_lower_bound; lia).
    destruct (str_word m (key + 4) (drop 4 s) junk) as (v&Hr&Hz&Hv1&Hv2).
    { rewrite -Hdrop. apply (bytes_at_drop _ _ _ 4%nat Hm). }
    { rewrite -Hdrop. by apply Forall_drop. }
    { by apply Forall_drop. }
    { rewrite -Hdrop drop_length. lia. }
    rewrite (bind_ok _ _ _ _ Hr) Hz. rewrite drop_length in Hz Hv1 Hv2 |- *.
    case_bool_decide as Hlt.
    { rewrite Hv2 //. unfold mret, M_ret. unfold mix_blocks. simpl fold_left. unfold add_block.
      rewrite (word_at_drop s 1 0).
      do 3 f_equal.
      unfold word_at, byte_at. symmetry. etrans; [|by apply Hs]. unfold add32. f_equal. f_equal.
      rewrite !nth_overflow; simpl; lia. }
    assert (Hq2 : (8 ≤ length s)%nat) by lia. clear Hlt.
    rewrite (Hv1 ltac:(lia)) in Hr |- *. clear Hv1 Hv2 Hz v Hr.
    assert (Hdrop2 : drop 8 (s ++ 0 :: junk) = drop 8 s ++ 0 :: junk) by (apply drop_app_le; lia).
    assert (Hd2 : (2 ≤ Nat.div (length s) 4)%nat) by (apply Nat.div_le_lower_bound; lia).
    destruct (str_word m (key + 8) (drop 8 s) junk) as (v&Hr&Hz&Hv1&Hv2).
    { rewrite -Hdrop2. apply (bytes_at_drop _ _ _ 8%nat Hm). }
    { rewrite -Hdrop2. by apply Forall_drop. }
    { by apply Forall_drop. }
    { rewrite -Hdrop2 drop_length. lia. }
    rewrite (bind_ok _ _ _ _ Hr) Hz. rewrite drop_length in Hz Hv1 Hv2 |- *.
    rewrite bool_decide_eq_true_2; [lia|]. rewrite Hv2 //; [lia|].
    unfold mret, M_ret. unfold mix_blocks. simpl fold_left. unfold add_block.
    rewrite (word_at_drop s 1 0) (word_at_drop s 2 0). done.
  - assert (Hl : (12 ≤ length s)%nat).
    { destruct (decide (12 ≤ length s)%nat); [done|]. rewrite Nat.div_small in Hn; lia. }
    destruct fuel as [|fuel]; [lia|]. destruct abc as [[a b] c]. cbn [strhash_loop].
    assert (Hd3 : (3 ≤ Nat.div (length s) 4)%nat) by (apply Nat.div_le_lower_bound; lia).
    destruct (str_word m key s junk) as (v&Hr&Hz&Hv1&Hv2); [done..|lia|].
    rewrite (bind_ok _ _ _ _ Hr) Hz. rewrite bool_decide_eq_false_2; [lia|].
    rewrite (Hv1 ltac:(lia)). clear Hv1 Hv2 Hz v Hr.
    assert (Hdrop : drop 4 (s ++ 0 :: junk) = drop 4 s ++ 0 :: junk) by (apply drop_app_le; lia).
    destruct (str_word m (key + 4) (drop 4 s) junk) as (v&Hr&Hz&Hv1&Hv2).
    { rewrite -Hdrop. apply (bytes_at_drop _ _ _ 4%nat Hm). }
    { rewrite -Hdrop. by apply Forall_drop. }
    { by apply Forall_drop. }
    { rewrite -Hdrop drop_length. lia. }
    rewrite (bind_ok _ _ _ _ Hr) Hz. rewrite drop_length in Hz Hv1 Hv2 |- *.
    rewrite bool_decide_eq_false_2; [lia|].
    rewrite (Hv1 ltac:(lia)). clear Hv1 Hv2 Hz v Hr.
    assert (Hdrop2 : drop 8 (s ++ 0 :: junk) = drop 8 s ++ 0 :: junk) by (apply drop_app_le; lia).
    destruct (str_word m (key + 8) (drop 8 s) junk) as (v&Hr&Hz&Hv1&Hv2).
    { rewrite -Hdrop2. apply (bytes_at_drop _ _ _ 8%nat Hm). }
    { rewrite -Hdrop2. by apply Forall_drop. }
    { by apply Forall_drop. }
    { rewrite -Hdrop2 drop_length. lia. }
    rewrite (bind_ok _ _ _ _ Hr) Hz. rewrite drop_length in Hz Hv1 Hv2 |- *.
    rewrite bool_decide_eq_false_2; [lia|].
    rewrite (Hv1 ltac:(lia)). clear Hv1 Hv2 Hz v Hr.
    rewrite (word_at_drop s 1 0) (word_at_drop s 2 0).
    change (add32 a (word_at s 0), add32 b (word_at s (1 + 0)), add32 c (word_at s (2 + 0)))
      with (add_block s (a, b, c) 0).
    destruct (mix_ok (add_block s (a, b, c) 0)) as [Hmix Hmix']; [apply add_block_u32|].
    assert (Hdrop3 : drop 12 (s ++ 0 :: junk) = drop 12 s ++ 0 :: junk) by (apply drop_app_le; lia).
    assert (Hdm : length s = (length s - 12 + 1 * 12)%nat) by lia.
    assert (Hdm4 : length s = (length s - 12 + 3 * 4)%nat) by lia.
    rewrite Hmix (IH (key + 12) (drop 12 s)).
    + rewrite -Hdrop3. apply (bytes_at_drop _ _ _ 12%nat Hm).
    + rewrite -Hdrop3. by apply Forall_drop.
    + by apply Forall_drop.
    + rewrite -Hdrop3 !drop_length. rewrite {1}Hdm4 in Hlen.
      rewrite -> Nat.div_add in Hlen by lia. lia.
    + done.
    + rewrite drop_length. rewrite Hdm in Hn. rewrite -> Nat.div_add in Hn by lia. lia.
    + lia.
    + rewrite mix_blocks_S. by rewrite (add_block_drop s 1).
Qed.

Lemma strhash_ok m key s junk init fuel :
  bytes_at m key (s ++ 0 :: junk) → Forall u8 (s ++ 0 :: junk) → Forall (λ b, b ≠ 0) s →
  (4 * (Nat.div (length s) 4 + 1) ≤ length (s ++ 0%Z :: junk))%nat → u64 init →
  (Nat.div (length s) 12 < fuel)%nat →
  strhash_u32 x86 fuel init key m = Ok (strhash_spec init s) m.
Proof.
  intros Hm Hu Hnz Hlen Hi Hf. unfold strhash_u32, strhash_spec.
  assert (Hseed : wrap32 (add64 0xdeadbeef init) = (0xdeadbeef + init) mod 2 ^ 32).
  { unfold wrap32, add64. change (2 ^ 64) with (2 ^ 32 * 2 ^ 32).
    rewrite -> Z.rem_mul_r by lia. rewrite Z.mul_comm Z.mod_add //. by rewrite Zmod_mod. }
  rewrite Hseed. set (x := (_ mod _)%Z).
  rewrite (bind_ok _ _ _ _ (strhash_loop_ok _ m key s junk (x, x, x) fuel Hm Hu Hnz Hlen
    ltac:(split; [|split]; apply u32_mod) eq_refl Hf)).
  destruct (final_ok (add_block s (mix_blocks s (Nat.div (length s) 12) (x, x, x)) (Nat.div (length s) 12))) as [-> _];
    [apply add_block_u32|].
  by destruct (lookup3_final _) as [[a b] c].
Qed.

(** ** Reading after the string *)
Lemma le_read_ub m key (bs : list Z) :
  bytes_at m key bs → (length bs < 4)%nat → m !! (key + Z.of_nat (length bs)) = None → le_uint32_read x86 key m = UB.
Proof.
  intros Hm Hl Hn.
  assert (L : ∀ i b, bs !! i = Some b → m !! (key + Z.of_nat i) = Some (B b)) by apply Hm.
  assert (L0 : ∀ b, bs !! 0%nat = Some b → m !! key = Some (B b)).
  { intros b Hb. apply L in Hb. by rewrite Z.add_0_r in Hb. }
  pose proof (λ b, L 1%nat b) as L1. pose proof (λ b, L 2%nat b) as L2. clear L Hm. simpl in L1, L2.
  destruct bs as [|b0 [|b1 [|b2 [|]]]]; simpl in Hl, Hn; [..|lia]; rewrite ?Z.add_0_r in Hn;
    unfold le_uint32_read; destruct x86;
    unfold le_uint32_read_x86, le_uint32_read_portable, loadb, mbind, M_bind; rewrite ?Z.add_0_r;
    try rewrite (L0 b0 eq_refl); try rewrite (L1 b1 eq_refl); try rewrite (L2 b2 eq_refl); by rewrite Hn.
Qed.

Lemma strhash_loop_ub m junk : ∀ fuel key s abc,
  bytes_at m key (s ++ 0 :: junk) → Forall u8 (s ++ 0 :: junk) → Forall (λ b, b ≠ 0) s →
  (length junk + length s mod 4 < 3)%nat → m !! (key + Z.of_nat (length (s ++ 0%Z :: junk))) = None →
  (Nat.div (length s) 12 < fuel)%nat → strhash_loop x86 fuel abc key m = UB.
Proof.
  induction fuel as [|fuel IH]; intros key s abc Hm Hu Hnz Hj Hn Hf; [lia|].
  destruct abc as [[a b] c]. cbn [strhash_loop].
  (* a word is read entirely or not *)
  assert (Hword : ∀ i, (4 * i ≤ length s)%nat →
    (le_uint32_read x86 (key + Z.of_nat (4 * i)) m = UB ∨
     ∃ v, le_uint32_read x86 (key + Z.of_nat (4 * i)) m = Ok v m ∧ haszero_u32 v = false ∧ (4 * i + 4 ≤ length s)%nat)).
  { intros i Hi. assert (Hdrop : drop (4 * i) (s ++ 0 :: junk) = drop (4 * i) s ++ 0 :: junk) by (apply drop_app_le; lia).
    destruct (decide (4 * i + 4 ≤ length s)%nat) as [Hle|Hgt].
    - right. destruct (str_word m (key + Z.of_nat (4 * i)) (drop (4 * i) s) junk) as (v&Hr&Hz&_).
      { rewrite -Hdrop. by apply bytes_at_drop. }
      { rewrite -Hdrop. by apply Forall_drop. }
      { by apply Forall_drop. }
      { rewrite app_length drop_length. simpl. lia. }
      exists v. split; [done|]. split; [|done]. rewrite Hz bool_decide_eq_false_2 //. rewrite drop_length. lia.
    - left. eapply (le_read_ub _ _ (drop (4 * i) s ++ 0 :: junk)).
      + rewrite -Hdrop. by apply bytes_at_drop.
      + assert (length s mod 4 = length s - 4 * i)%nat.
        { symmetry. apply (Nat.mod_unique _ _ i); lia. }
        rewrite app_length drop_length /=. lia.
      + rewrite -Hn. f_equal. rewrite !app_length drop_length /=. lia. }
  destruct (Hword 0%nat) as [Hw|(v & Hw & Hz & H4)]; [lia| |]; rewrite Z.add_0_r in Hw.
  { unfold mbind, M_bind. by rewrite Hw. }
  rewrite (bind_ok _ _ _ _ Hw) Hz. clear Hw Hz.
  destruct (Hword 1%nat) as [Hw|(v1 & Hw & Hz & H8)]; [lia| |]; change (Z.of_nat (4 * 1)) with 4 in Hw.
  { unfold mbind, M_bind. by rewrite Hw. }
  rewrite (bind_ok _ _ _ _ Hw) Hz. clear Hw Hz.
  destruct (Hword 2%nat) as [Hw|(v2 & Hw & Hz & H12)]; [lia| |]; change (Z.of_nat (4 * 2)) with 8 in Hw.
  { unfold mbind, M_bind. by rewrite Hw. }
  rewrite (bind_ok _ _ _ _ Hw) Hz. clear Hw Hz Hword.
  assert (Hdrop3 : drop 12 (s ++ 0 :: junk) = drop 12 s ++ 0 :: junk) by (apply drop_app_le; lia).
  assert (Hdm : length s = (length s - 12 + 1 * 12)%nat) by lia.
  assert (Hdm4 : length s = (length s - 12 + 3 * 4)%nat) by lia.
  apply (IH (key + 12) (drop 12 s)).
  - rewrite -Hdrop3. apply (bytes_at_drop _ _ _ 12%nat Hm).
  - rewrite -Hdrop3. by apply Forall_drop.
  - by apply Forall_drop.
  - rewrite drop_length. rewrite Hdm4 in Hj. rewrite -> Nat.mod_add in Hj by lia. lia.
  - rewrite -Hn. f_equal. rewrite !app_length drop_length /=. lia.
  - rewrite drop_length. rewrite Hdm in Hf. rewrite -> Nat.div_add in Hf by lia. lia.
Qed.

Lemma strhash_ub m key s junk init fuel :
  bytes_at m key (s ++ 0 :: junk) → Forall u8 (s ++ 0 :: junk) → Forall (λ b, b ≠ 0) s →
  Z.of_nat (length junk) < 3 - Z.of_nat (length s) mod 4 →
  m !! (key + Z.of_nat (length (s ++ 0%Z :: junk))) = None → (Nat.div (length s) 12 < fuel)%nat →
  strhash_u32 x86 fuel init key m = UB.
Proof.
  intros Hm Hu Hnz Hj Hn Hf. unfold strhash_u32, mbind, M_bind.
  rewrite (strhash_loop_ub m junk fuel key s) //.
  assert (Z.of_nat (length s mod 4)%nat = Z.of_nat (length s) mod 4) by (rewrite Nat2Z.inj_mod; done). lia.
Qed.
End hash.

(** ** inthash *)
Definition bij (N : Z) (f : Z → Z) : Prop :=
  ∃ g, ∀ x, 0 ≤ x < N → 0 ≤ f x < N ∧ 0 ≤ g x < N ∧ g (f x) = x ∧ f (g x) = x.

Lemma bij_compose N f h : bij N f → bij N h → bij N (λ x, h (f x)).
Proof.
  intros [g Hg] [k Hk]. exists (λ x, g (k x)). intros x Hx.
  destruct (Hg x Hx) as (?&?&?&?). destruct (Hk x Hx) as (?&?&?&?).
  destruct (Hk (f x)) as (?&?&Hkf&?); [done|]. destruct (Hg (k x)) as (?&?&?&Hgk); [done|].
  rewrite Hkf Hgk. auto.
Qed.

Lemma bij_ext N f h : (∀ x, 0 ≤ x < N → f x = h x) → bij N f → bij N h.
Proof.
  intros He [g Hg]. exists g. intros x Hx. destruct (Hg x Hx) as (?&?&?&?).
  rewrite -(He x Hx) -(He (g x)) //.
Qed.

Lemma bij_mul_add N k inv d : 0 < N → (k * inv) mod N = 1 → bij N (λ x, (x * k + d) mod N).
Proof.
  intros HN Hk. exists (λ y, ((y - d) * inv) mod N). intros x Hx.
  assert (1 < N ∨ N = 1) as [HN1| ->] by lia; [|rewrite Z.mod_1_r in Hk; lia].
  split; [by apply Z.mod_pos_bound|]. split; [by apply Z.mod_pos_bound|].
  assert (Hx' : (x * (k * inv)) mod N = x).
  { rewrite Z.mul_mod; [lia|]. rewrite Hk Z.mul_1_r Zmod_mod. by apply Z.mod_small. }
  split.
  - rewrite -Zmult_mod_idemp_l Zminus_mod_idemp_l Zmult_mod_idemp_l -{2}Hx'. f_equal. lia.
  - rewrite -Zplus_mod_idemp_l Zmult_mod_idemp_l Zplus_mod_idemp_l.
    replace ((x - d) * inv * k + d) with ((x - d) * (k * inv) + d) by lia.
    rewrite -Zplus_mod_idemp_l Z.mul_mod; [lia|]. rewrite Hk Z.mul_1_r Zmod_mod Zplus_mod_idemp_l.
    rewrite Z.sub_add. by apply Z.mod_small.
Qed.

(** [x ^ S x] where [S] is a linear, nilpotent shift *)
Fixpoint xs_inv (S : Z → Z) (n : nat) (y : Z) : Z :=
  match n with O => y | Datatypes.S n => Z.lxor y (S (xs_inv S n y)) end.

Lemma xs_inv_range w (S : Z → Z) n y :
  0 ≤ w → (∀ x, 0 ≤ x < 2 ^ w → 0 ≤ S x < 2 ^ w) → 0 ≤ y < 2 ^ w → 0 ≤ xs_inv S n y < 2 ^ w.
Proof.
  intros Hw HS Hy. induction n as [|n IH]; simpl; [done|].
  apply lxor_range; auto.
Qed.

Lemma xs_inv_left w (S : Z → Z) n x :
  0 ≤ w → (∀ x, 0 ≤ x < 2 ^ w → 0 ≤ S x < 2 ^ w) →
  (∀ x y, S (Z.lxor x y) = Z.lxor (S x) (S y)) →
  0 ≤ x < 2 ^ w →
  xs_inv S n (Z.lxor x (S x)) = Z.lxor x (Nat.iter (Datatypes.S n) S x).
Proof.
  intros Hw HS Hlin Hx. induction n as [|n IH]; [done|].
  cbn [xs_inv]. rewrite IH Hlin. simpl.
  rewrite Z.lxor_assoc -(Z.lxor_assoc (S x)) Z.lxor_nilpotent Z.lxor_0_l. done.
Qed.

Lemma xs_inv_right (S : Z → Z) n y :
  (∀ x y, S (Z.lxor x y) = Z.lxor (S x) (S y)) →
  Z.lxor (xs_inv S n y) (S (xs_inv S n y)) = Z.lxor y (Nat.iter (Datatypes.S n) S y).
Proof.
  intros Hlin. induction n as [|n IH]; [done|].
  cbn [xs_inv]. rewrite Hlin.
  assert (Z.lxor (Z.lxor y (S (xs_inv S n y))) (Z.lxor (S y) (S (S (xs_inv S n y)))) =
          Z.lxor (Z.lxor y (S y)) (S (Z.lxor (xs_inv S n y) (S (xs_inv S n y))))) as ->.
  { rewrite Hlin !Z.lxor_assoc. f_equal. rewrite -!Z.lxor_assoc. f_equal. apply Z.lxor_comm. }
  rewrite IH Hlin. simpl. rewrite Z.lxor_assoc -(Z.lxor_assoc (S y)) Z.lxor_nilpotent Z.lxor_0_l. done.
Qed.

Lemma bij_xorshift w (S : Z → Z) n :
  0 ≤ w → (∀ x, 0 ≤ x < 2 ^ w → 0 ≤ S x < 2 ^ w) →
  (∀ x y, S (Z.lxor x y) = Z.lxor (S x) (S y)) →
  (∀ x, 0 ≤ x < 2 ^ w → Nat.iter (Datatypes.S n) S x = 0) →
  bij (2 ^ w) (λ x, Z.lxor x (S x)).
Proof.
  intros Hw HS Hlin Hnil. exists (xs_inv S n). intros x Hx.
  split; [by apply lxor_range; auto|]. split; [by apply xs_inv_range|]. split.
  - by rewrite (xs_inv_left w) // Hnil // Z.lxor_0_r.
  - by rewrite xs_inv_right // Hnil // Z.lxor_0_r.
Qed.

Lemma shr_lin k x y : 0 ≤ k → shr (Z.lxor x y) k = Z.lxor (shr x k) (shr y k).
Proof. intros. unfold shr. by apply Z.shiftr_lxor. Qed.

Lemma shr_range w k x : 0 ≤ k → 0 ≤ x < 2 ^ w → 0 ≤ shr x k < 2 ^ w.
Proof.
  intros Hk Hx. unfold shr. rewrite -> Z.shiftr_div_pow2 by lia.
  assert (0 < 2 ^ k) by (apply Z.pow_pos_nonneg; lia).
  split; [apply Z.div_pos; lia|]. apply Z.div_lt_upper_bound; nia.
Qed.

Lemma shr_iter k n x : 0 ≤ k → Nat.iter n (λ x, shr x k) x = shr x (Z.of_nat n * k).
Proof.
  intros Hk. induction n as [|n IH].
  - simpl. unfold shr. by rewrite Z.shiftr_0_r.
  - cbn [Nat.iter nat_rect]. unfold Nat.iter in IH. rewrite IH. unfold shr.
    rewrite Z.shiftr_shiftr; [lia|]. f_equal. lia.
Qed.

Lemma bij_xor_shr w k n :
  0 ≤ w → 0 ≤ k → w ≤ Z.of_nat (S n) * k → bij (2 ^ w) (λ x, Z.lxor x (shr x k)).
Proof.
  intros Hw Hk Hn. apply (bij_xorshift w (λ x, shr x k) n); [done| | |].
  - intros. by apply shr_range.
  - intros. by apply shr_lin.
  - intros x Hx. rewrite shr_iter //. unfold shr. rewrite -> Z.shiftr_div_pow2 by lia.
    apply Z.div_small. split; [lia|]. apply Z.lt_le_trans with (2 ^ w); [lia|].
    apply Z.pow_le_mono_r; lia.
Qed.

Definition shlw (w x k : Z) : Z := Z.shiftl x k mod 2 ^ w.

Lemma shlw_lin w k x y : 0 ≤ w → 0 ≤ k → shlw w (Z.lxor x y) k = Z.lxor (shlw w x k) (shlw w y k).
Proof.
  intros. unfold shlw. rewrite -!Z.land_ones // Z.shiftl_lxor.
  apply Z.bits_inj'. intros i Hi. rewrite !Z.land_spec !Z.lxor_spec !Z.land_spec.
  by destruct (Z.testbit (Z.ones w) i); rewrite ?andb_true_r ?andb_false_r.
Qed.

Lemma shlw_iter w k n x : 0 ≤ w → 0 ≤ k → 0 ≤ x < 2 ^ w →
  Nat.iter n (λ x, shlw w x k) x = (x * 2 ^ (Z.of_nat n * k)) mod 2 ^ w.
Proof.
  intros Hw Hk Hx. induction n as [|n IH].
  - simpl. rewrite Z.mul_1_r. symmetry. by apply Z.mod_small.
  - cbn [Nat.iter nat_rect]. unfold Nat.iter in IH. rewrite IH. unfold shlw.
    rewrite -> Z.shiftl_mul_pow2 by lia. rewrite Zmult_mod_idemp_l -Z.mul_assoc.
    rewrite <- Z.pow_add_r by lia. do 2 f_equal. f_equal. lia.
Qed.

Lemma bij_xor_shl w k n :
  0 ≤ w → 0 ≤ k → w ≤ Z.of_nat (S n) * k → bij (2 ^ w) (λ x, Z.lxor x (shlw w x k)).
Proof.
  intros Hw Hk Hn. apply (bij_xorshift w (λ x, shlw w x k) n); [done| | |].
  - intros. apply Z.mod_pos_bound. apply Z.pow_pos_nonneg; lia.
  - intros. by apply shlw_lin.
  - intros x Hx. rewrite shlw_iter //.
    replace (Z.of_nat (S n) * k) with (Z.of_nat (S n) * k - w + w) by lia.
    rewrite -> Z.pow_add_r by lia. rewrite Z.mul_assoc. apply Z.mod_mul.
    assert (0 < 2 ^ w) by (apply Z.pow_pos_nonneg; lia). lia.
Qed.

Lemma inthash_u32_bij : bij (2 ^ 32) inthash_u32.
Proof.
  assert (Hsub : ∀ k inv, 0 ≤ k → ((1 - 2 ^ k) * inv) mod 2 ^ 32 = 1 → bij (2 ^ 32) (λ x, sub32 x (shl32 x k))).
  { intros k inv Hk Hinv. eapply bij_ext; [|apply (bij_mul_add (2 ^ 32) (1 - 2 ^ k) inv 0); [lia|done]].
    intros x Hx. simpl. unfold sub32, shl32. rewrite Zminus_mod_idemp_r. rewrite -> Z.shiftl_mul_pow2 by lia.
    f_equal. lia. }
  assert (H1 : bij (2 ^ 32) (λ x, sub32 x (shl32 x 6))) by (by apply (Hsub _ 1090785345)).
  assert (H2 : bij (2 ^ 32) (λ x, Z.lxor x (shr x 17))) by (by apply (bij_xor_shr 32 17 1)).
  assert (H3 : bij (2 ^ 32) (λ x, sub32 x (shl32 x 9))) by (by apply (Hsub _ 134480385)).
  assert (H4 : bij (2 ^ 32) (λ x, Z.lxor x (shl32 x 4))) by (by apply (bij_xor_shl 32 4 7)).
  assert (H5 : bij (2 ^ 32) (λ x, sub32 x (shl32 x 3))) by (by apply (Hsub _ 1227133513)).
  assert (H6 : bij (2 ^ 32) (λ x, Z.lxor x (shl32 x 10))) by (by apply (bij_xor_shl 32 10 3)).
  assert (H7 : bij (2 ^ 32) (λ x, Z.lxor x (shr x 15))) by (by apply (bij_xor_shr 32 15 2)).
  eapply bij_ext; [|exact (bij_compose _ _ _ (bij_compose _ _ _ (bij_compose _ _ _ (bij_compose _ _ _
    (bij_compose _ _ _ (bij_compose _ _ _ H1 H2) H3) H4) H5) H6) H7)]. intros x _. unfold inthash_u32, inthash_u64. cbv beta zeta. reflexivity.
Qed.

Lemma inthash_u64_bij : bij (2 ^ 64) inthash_u64.
Proof.
  assert (Hadd : ∀ k d inv f, (k * inv) mod 2 ^ 64 = 1 →
     (∀ x, 0 ≤ x < 2 ^ 64 → f x = (x * k + d) mod 2 ^ 64) → bij (2 ^ 64) f).
  { intros k d inv f Hinv Hf. eapply bij_ext; [|apply (bij_mul_add (2 ^ 64) k inv d); [lia|done]].
    intros x Hx. by rewrite Hf. }
  assert (H1 : bij (2 ^ 64) (λ x, add64 (not64 x) (shl64 x 21))).
  { apply (Hadd (2 ^ 21 - 1) (-1) 9223367638806167551); [done|]. intros x Hx.
    unfold add64, not64, shl64. rewrite lxor_compl // Zplus_mod_idemp_r. rewrite -> Z.shiftl_mul_pow2 by lia.
    replace (2 ^ 64 - 1 - x + x * 2 ^ 21) with (x * (2 ^ 21 - 1) + -1 + 1 * 2 ^ 64) by lia.
    by rewrite Z.mod_add. }
  assert (H2 : bij (2 ^ 64) (λ x, Z.lxor x (shr x 24))) by (by apply (bij_xor_shr 64 24 2)).
  assert (H3 : bij (2 ^ 64) (λ x, add64 (add64 x (shl64 x 3)) (shl64 x 8))).
  { apply (Hadd (1 + 2 ^ 3 + 2 ^ 8) 0 15244667743933553977); [done|]. intros x Hx.
    unfold add64, shl64. rewrite Zplus_mod_idemp_l Zplus_mod_idemp_r -Z.add_assoc (Z.add_comm (_ mod _)) Z.add_assoc Zplus_mod_idemp_r.
    rewrite -> !Z.shiftl_mul_pow2 by lia. f_equal. lia. }
  assert (H4 : bij (2 ^ 64) (λ x, Z.lxor x (shr x 14))) by (by apply (bij_xor_shr 64 14 4)).
  assert (H5 : bij (2 ^ 64) (λ x, add64 (add64 x (shl64 x 2)) (shl64 x 4))).
  { apply (Hadd (1 + 2 ^ 2 + 2 ^ 4) 0 14933078535860113213); [done|]. intros x Hx.
    unfold add64, shl64. rewrite Zplus_mod_idemp_l Zplus_mod_idemp_r -Z.add_assoc (Z.add_comm (_ mod _)) Z.add_assoc Zplus_mod_idemp_r.
    rewrite -> !Z.shiftl_mul_pow2 by lia. f_equal. lia. }
  assert (H6 : bij (2 ^ 64) (λ x, Z.lxor x (shr x 28))) by (by apply (bij_xor_shr 64 28 2)).
  assert (H7 : bij (2 ^ 64) (λ x, add64 x (shl64 x 31))).
  { apply (Hadd (1 + 2 ^ 31) 0 4611686016279904257); [done|]. intros x Hx.
  unfold add64, shl64. rewrite Zplus_mod_idemp_r. rewrite -> !Z.shiftl_mul_pow2 by lia. f_equal. lia. }
  eapply bij_ext; [|exact (bij_compose _ _ _ (bij_compose _ _ _ (bij_compose _ _ _ (bij_compose _ _ _
    (bij_compose _ _ _ (bij_compose _ _ _ H1 H2) H3) H4) H5) H6) H7)]. intros x _. unfold inthash_u32, inthash_u64. cbv beta zeta. reflexivity.
Qed.

(** ** Forms used by the property statements *)
Lemma bij_explicit N f : bij N f →
  (∀ x, 0 ≤ x < N → 0 ≤ f x < N) ∧
  (∀ x y, 0 ≤ x < N → 0 ≤ y < N → f x = f y → x = y) ∧
  (∀ y, 0 ≤ y < N → ∃ x, 0 ≤ x < N ∧ f x = y).
Proof.
  intros [g Hg]. split; [|split].
  - intros x Hx. by apply Hg.
  - intros x y Hx Hy Heq. destruct (Hg x Hx) as (_&_&<-&_). rewrite Heq. by apply Hg.
  - intros y Hy. exists (g y). destruct (Hg y Hy) as (?&?&?&?). done.
Qed.

Lemma le_read_branches m ptr b0 b1 b2 b3 :
  u8 b0 → u8 b1 → u8 b2 → u8 b3 → bytes_at m ptr [b0; b1; b2; b3] →
  le_uint32_read true ptr m = le_uint32_read false ptr m ∧
  ∀ x86, le_uint32_read x86 ptr m = Ok (b0 + 2 ^ 8 * b1 + 2 ^ 16 * b2 + 2 ^ 24 * b3) m.
Proof.
  intros H0 H1 H2 H3 Hm. split.
  - simpl. by rewrite (le_read_x86 _ _ b0 b1 b2 b3) // (le_read_portable _ _ b0 b1 b2 b3).
  - intros []; [by apply le_read_x86|by apply le_read_portable].
Qed.

Lemma hash_low_half x86 m key bs init fuel :
  bytes_at m key bs → Forall u8 bs → Z.of_nat (length bs) < 2 ^ 64 →
  u32 init → (length bs ≤ 12 * fuel + 12)%nat →
  ∃ h32 h64, hash_u32 x86 fuel init key (Z.of_nat (length bs)) m = Ok h32 m ∧
    hash_u64 x86 fuel init key (Z.of_nat (length bs)) m = Ok h64 m ∧ h64 mod 2 ^ 32 = h32.
Proof.
  intros Hm Hu Hl Hi Hf. exists (hashlittle init bs), (hashlittle2 init bs).
  split; [by apply hash_u32_ok|]. unfold u32 in Hi. split; [apply hash_u64_ok; try done; unfold u64; lia|].
  unfold hashlittle, hashlittle2. rewrite (Z.div_small init) // (Z.mod_small init) // Z.add_0_r Zmod_mod.
  set (x := ((3735928559 + Z.of_nat (length bs) + init) mod 2 ^ 32)%Z).
  pose proof (lookup3_core_u32 bs (x, x, x) ltac:(split; [|split]; apply u32_mod)) as (_&Hb&Hc).
  destruct (lookup3_core bs (x, x, x)) as [[a b] c]. cbn [fst snd] in *.
  rewrite Z.mul_comm. rewrite -> Z.mod_add by done. by apply Z.mod_small.
Qed.

Lemma strhash_overread :
  ∃ (m : mem) (key : Z) (s : list Z), bytes_at m key (s ++ [0]) ∧ Forall (λ b, 0 < b < 256) s ∧
    ∀ x86 fuel init, (0 < fuel)%nat → strhash_u32 x86 fuel init key m = UB.
Proof.
  exists {[ 16 := B 0 ]}, 16, []. split; [|split; [done|]].
  - intros [|i] b Hi; [|done]. injection Hi as <-. done.
  - intros [] [|fuel] init Hf; [lia| |lia|]; reflexivity.
Qed.

Lemma strhash_overread_3 x86 m key s junk init fuel :
  bytes_at m key (s ++ 0 :: junk) → Forall u8 (s ++ 0 :: junk) → Forall (λ b, b ≠ 0) s →
  Z.of_nat (length junk) = 3 - Z.of_nat (length s) mod 4 →
  u64 init → (Nat.div (length s) 12 < fuel)%nat →
  ∃ h, strhash_u32 x86 fuel init key m = Ok h m.
Proof.
  intros Hm Hu Hnz Hj Hi Hf. eexists. eapply strhash_ok; eauto.
  rewrite app_length. simpl length.
  pose proof (Nat.div_mod (length s) 4 ltac:(lia)). 
  assert (Z.of_nat (length s mod 4)%nat = Z.of_nat (length s) mod 4) by (rewrite Nat2Z.inj_mod; done).
  lia.
Qed.

Lemma ilog2_u32_correct v : 0 < v < 2 ^ 32 →
  let k := ilog2_u32_portable v in
  0 ≤ k ∧ Z.testbit v k = true ∧ (∀ i, k < i → Z.testbit v i = false) ∧ ilog2_u32_gnuc v = k.
Proof.
  intros Hv. cbv zeta. rewrite ilog2_u32_portable_ok // ilog2_u32_gnuc_ok //.
  destruct (log2_bits v) as (?&?&?); [lia|]. auto.
Qed.
Lemma ilog2_u64_correct v : 0 < v < 2 ^ 64 →
  let k := ilog2_u64_portable v in
  0 ≤ k ∧ Z.testbit v k = true ∧ (∀ i, k < i → Z.testbit v i = false) ∧ ilog2_u64_gnuc v = k.
Proof.
  intros Hv. cbv zeta. rewrite ilog2_u64_portable_ok // ilog2_u64_gnuc_ok //.
  destruct (log2_bits v) as (?&?&?); [lia|]. auto.
Qed.
Lemma ctz_u32_correct v : 0 < v < 2 ^ 32 →
  let k := ctz_u32_portable v in
  0 ≤ k ∧ Z.testbit v k = true ∧ (∀ i, 0 ≤ i < k → Z.testbit v i = false) ∧ ctz_u32_gnuc v = k.
Proof.
  intros Hv. cbv zeta. rewrite ctz_u32_portable_ok //.
  destruct (builtin_ctz_bits v) as (?&?&?); [lia|]. auto.
Qed.
Lemma ctz_u64_correct v : 0 < v < 2 ^ 64 →
  let k := ctz_u64_portable v in
  0 ≤ k ∧ Z.testbit v k = true ∧ (∀ i, 0 ≤ i < k → Z.testbit v i = false) ∧ ctz_u64_gnuc v = k.
Proof.
  intros Hv. cbv zeta. rewrite ctz_u64_portable_ok //.
  destruct (builtin_ctz_bits v) as (?&?&?); [lia|]. auto.
Qed.
Lemma roundup_u32_correct v : 1 ≤ v ≤ 2 ^ 31 →
  ∃ k, 0 ≤ k ∧ roundup_pow2_u32 v = 2 ^ k ∧ v ≤ 2 ^ k ∧ (∀ j, 0 ≤ j → v ≤ 2 ^ j → 2 ^ k ≤ 2 ^ j).
Proof.
  intros Hv. destruct (roundup_pow2_u32_ok v Hv) as (k&?&?&?&Hk). exists k. split; [lia|].
  split; [done|]. split; [done|]. intros j Hj Hvj. apply Z.pow_le_mono_r; [lia|]. by apply Hk.
Qed.
Lemma roundup_u64_correct v : 1 ≤ v ≤ 2 ^ 63 →
  ∃ k, 0 ≤ k ∧ roundup_pow2_u64 v = 2 ^ k ∧ v ≤ 2 ^ k ∧ (∀ j, 0 ≤ j → v ≤ 2 ^ j → 2 ^ k ≤ 2 ^ j).
Proof.
  intros Hv. destruct (roundup_pow2_u64_ok v Hv) as (k&?&?&?&Hk). exists k. split; [lia|].
  split; [done|]. split; [done|]. intros j Hj Hvj. apply Z.pow_le_mono_r; [lia|]. by apply Hk.
Qed.
Lemma haszero_correct v : 0 ≤ v < 2 ^ 32 →
  haszero_u32 v = true ↔ ∃ i, 0 ≤ i < 4 ∧ (v / 2 ^ (8 * i)) mod 2 ^ 8 = 0.
Proof.
  intros Hv. rewrite haszero_ok //. unfold byte_of. split.
  - intros [H|[H|[H|H]]]; [exists 0|exists 1|exists 2|exists 3]; split; try done.
  - intros (i&Hi&H). assert (i = 0 ∨ i = 1 ∨ i = 2 ∨ i = 3) as [->|[->|[->| ->]]] by lia; auto.
Qed.
