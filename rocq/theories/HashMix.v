(** * The mixing of lookup3 loses nothing: proof of C62. *)
From Verif Require Export HashProof.
Global Open Scope Z_scope.

(** A one-to-one function from triples of 32-bit words onto them *)
Definition bij3 (f : Z * Z * Z → Z * Z * Z) : Prop :=
  (∀ s, u32x3 s → u32x3 (f s)) ∧
  (∀ s1 s2, u32x3 s1 → u32x3 s2 → f s1 = f s2 → s1 = s2) ∧
  (∀ t, u32x3 t → ∃ s, u32x3 s ∧ f s = t).

Lemma bij3_inverse f g : (∀ s, u32x3 s → u32x3 (f s)) → (∀ s, u32x3 s → u32x3 (g s)) →
  (∀ s, u32x3 s → g (f s) = s) → (∀ s, u32x3 s → f (g s) = s) → bij3 f.
Proof.
  intros Hf Hg H1 H2. split; [done|]. split.
  - intros s1 s2 Hs1 Hs2 E. by rewrite -(H1 s1) // -(H1 s2) // E.
  - intros t Ht. exists (g t). auto.
Qed.
Lemma bij3_compose f g : bij3 f → bij3 g → bij3 (λ s, g (f s)).
Proof.
  intros (F1 & F2 & F3) (G1 & G2 & G3). split; [auto|]. split; [auto|].
  intros t Ht. destruct (G3 t Ht) as (s & Hs & <-). destruct (F3 s Hs) as (r & Hr & <-). by exists r.
Qed.
Lemma bij3_ext f g : (∀ s, u32x3 s → f s = g s) → bij3 f → bij3 g.
Proof.
  intros E (F1 & F2 & F3). split; [|split].
  - intros s Hs. rewrite -E //. auto.
  - intros s1 s2 H1 H2. rewrite -!E //. auto.
  - intros t Ht. destruct (F3 t Ht) as (s & Hs & <-). exists s. by rewrite E.
Qed.

Local Ltac u32_tac :=
  repeat first [ done | apply u32_mod | apply u32_lxor | (apply rotl_u32; [|lia]) ].

Lemma add_sub32 x y : u32 x → ((x - y) mod 2 ^ 32 + y) mod 2 ^ 32 = x.
Proof. intros Hx. rewrite Zplus_mod_idemp_l. replace (x - y + y) with x by lia. by apply Z.mod_small. Qed.
Lemma sub_add32 x y : u32 x → ((x + y) mod 2 ^ 32 - y) mod 2 ^ 32 = x.
Proof. intros Hx. rewrite Zminus_mod_idemp_l. replace (x + y - y) with x by lia. by apply Z.mod_small. Qed.
Lemma lxor_twice x y : Z.lxor (Z.lxor x y) y = x.
Proof. by rewrite Z.lxor_assoc Z.lxor_nilpotent Z.lxor_0_r. Qed.

(** One line of mix; the variables are rotated, so that the next line has the
    same form. *)
Definition mstep (k : Z) (s : Z * Z * Z) : Z * Z * Z :=
  let '(x, y, z) := s in let '(x, z) := mix_line x y z k in (y, z, x).
Definition munstep (k : Z) (s : Z * Z * Z) : Z * Z * Z :=
  let '(y, z, x) := s in let z := (z - y) mod 2 ^ 32 in ((Z.lxor x (rotl z k) + z) mod 2 ^ 32, y, z).
Lemma mstep_bij k : 0 < k < 32 → bij3 (mstep k).
Proof.
  intros Hk. apply (bij3_inverse _ (munstep k)); intros [[x y] z] (Hx & Hy & Hz); simpl in Hx, Hy, Hz; simpl.
  - split; [|split]; simpl; u32_tac.
  - split; [|split]; simpl; u32_tac.
  - rewrite sub_add32 // lxor_twice add_sub32 //.
  - rewrite sub_add32; [u32_tac|]. rewrite lxor_twice add_sub32 //.
Qed.

(** One line of final *)
Definition fstep (k : Z) (s : Z * Z * Z) : Z * Z * Z := let '(x, y, w) := s in (w, final_line x y k, y).
Definition funstep (k : Z) (s : Z * Z * Z) : Z * Z * Z :=
  let '(w, x, y) := s in (Z.lxor ((x + rotl y k) mod 2 ^ 32) y, y, w).
Lemma fstep_bij k : 0 < k < 32 → bij3 (fstep k).
Proof.
  intros Hk. apply (bij3_inverse _ (funstep k)); intros [[x y] z] (Hx & Hy & Hz); simpl in Hx, Hy, Hz; simpl.
  - split; [|split]; simpl; rewrite ?/final_line; u32_tac.
  - split; [|split]; simpl; u32_tac.
  - rewrite /final_line add_sub32; [u32_tac|]. by rewrite lxor_twice.
  - rewrite /final_line lxor_twice sub_add32 //.
Qed.

Lemma lookup3_mix_bij : bij3 lookup3_mix.
Proof.
  apply (bij3_ext (λ s, mstep 4 (mstep 19 (mstep 16 (mstep 8 (mstep 6 (mstep 4 s))))))).
  { by intros [[a b] c] _. }
  repeat (apply (bij3_compose _ (mstep _)); [|by apply mstep_bij]). by apply (bij3_inverse _ (λ s, s)).
Qed.
Lemma swap3_bij : bij3 (λ s, (s.2, s.1.2, s.1.1)).
Proof.
  apply (bij3_inverse _ (λ s, (s.2, s.1.2, s.1.1))); intros [[a b] c] (? & ? & ?); done.
Qed.
Lemma turn3_bij : bij3 (λ s, (s.1.1, s.2, s.1.2)).
Proof.
  apply (bij3_inverse _ (λ s, (s.1.1, s.2, s.1.2))); intros [[a b] c] (? & ? & ?); done.
Qed.
Lemma lookup3_final_bij : bij3 lookup3_final.
Proof.
  apply (bij3_ext (λ s, (λ s, (s.1.1, s.2, s.1.2)) (fstep 24 (fstep 14 (fstep 4 (fstep 16 (fstep 25 (fstep 11 (fstep 14
    ((λ s, (s.2, s.1.2, s.1.1)) s)))))))))).
  { by intros [[a b] c] _. }
  apply (bij3_compose _ (λ s, (s.1.1, s.2, s.1.2))); [|exact turn3_bij].
  repeat (apply (bij3_compose _ (fstep _)); [|by apply fstep_bij]). apply swap3_bij.
Qed.

(** The model *)
Lemma mix_bij : bij3 mix.
Proof. eapply bij3_ext; [|exact lookup3_mix_bij]. intros s Hs. symmetry. by apply mix_ok. Qed.
Lemma final_bij : bij3 final.
Proof. eapply bij3_ext; [|exact lookup3_final_bij]. intros s Hs. symmetry. by apply final_ok. Qed.

(** ** Keys that differ in one block *)
Lemma u32_add_inj a w1 w2 : u32 w1 → u32 w2 → (a + w1) mod 2 ^ 32 = (a + w2) mod 2 ^ 32 → w1 = w2.
Proof.
  intros H1 H2 E. rewrite -(Z.mod_small w1 (2 ^ 32)) // -(Z.mod_small w2 (2 ^ 32)) //.
  replace w1 with (a + w1 - a) by lia. replace w2 with (a + w2 - a) by lia. by rewrite -Zminus_mod_idemp_l E Zminus_mod_idemp_l.
Qed.
Lemma byte_at_u8 bs i : Forall u8 bs → u8 (byte_at bs i).
Proof.
  intros H. unfold byte_at. destruct (nth_in_or_default i bs 0) as [Hin| ->]; [|done].
  rewrite Forall_forall in H. apply H. by apply elem_of_list_In.
Qed.
Lemma word_at_u32 bs i : Forall u8 bs → u32 (word_at bs i).
Proof.
  intros H. unfold word_at, u32. pose proof (byte_at_u8 bs (4 * i) H). pose proof (byte_at_u8 bs (4 * i + 1) H).
  pose proof (byte_at_u8 bs (4 * i + 2) H). pose proof (byte_at_u8 bs (4 * i + 3) H). unfold u8 in *. lia.
Qed.
Lemma word_at_inj b1 b2 i : Forall u8 b1 → Forall u8 b2 → word_at b1 i = word_at b2 i →
  ∀ j, (j < 4)%nat → byte_at b1 (4 * i + j) = byte_at b2 (4 * i + j).
Proof.
  intros H1 H2 E j Hj. unfold word_at in E.
  pose proof (byte_at_u8 b1 (4 * i) H1). pose proof (byte_at_u8 b1 (4 * i + 1) H1).
  pose proof (byte_at_u8 b1 (4 * i + 2) H1). pose proof (byte_at_u8 b1 (4 * i + 3) H1).
  pose proof (byte_at_u8 b2 (4 * i) H2). pose proof (byte_at_u8 b2 (4 * i + 1) H2).
  pose proof (byte_at_u8 b2 (4 * i + 2) H2). pose proof (byte_at_u8 b2 (4 * i + 3) H2). unfold u8 in *.
  destruct j as [|[|[|[|j]]]]; [rewrite !Nat.add_0_r| | | |lia]; lia.
Qed.

Lemma mix_blocks_last bs n s : mix_blocks bs (S n) s = lookup3_mix (add_block bs (mix_blocks bs n s) n).
Proof. unfold mix_blocks. by rewrite seq_S fold_left_app. Qed.
Lemma add_block_inj bs k s1 s2 : u32x3 s1 → u32x3 s2 → add_block bs s1 k = add_block bs s2 k → s1 = s2.
Proof.
  destruct s1 as [[a1 b1] c1], s2 as [[a2 b2] c2]. intros (Ha1 & Hb1 & Hc1) (Ha2 & Hb2 & Hc2) [= E1 E2 E3].
  simpl in *. f_equal; [f_equal|].
  - eapply (u32_add_inj (word_at bs (k + (k + (k + 0))))); [done|done|]. by rewrite !(Z.add_comm (word_at _ _)).
  - eapply (u32_add_inj (word_at bs (k + (k + (k + 0)) + 1))); [done|done|]. by rewrite !(Z.add_comm (word_at _ _)).
  - eapply (u32_add_inj (word_at bs (k + (k + (k + 0)) + 2))); [done|done|]. by rewrite !(Z.add_comm (word_at _ _)).
Qed.

Section one_block.
  Variables k1 k2 : list Z.
  Variable i : nat.
  Hypothesis H1 : Forall u8 k1.
  Hypothesis H2 : Forall u8 k2.
  Hypothesis Hsame : ∀ j, (j / 12)%nat ≠ i → byte_at k1 j = byte_at k2 j.
  Hypothesis Hdiff : ∃ j, (j / 12)%nat = i ∧ byte_at k1 j ≠ byte_at k2 j.

  Lemma block_same k s : k ≠ i → add_block k1 s k = add_block k2 s k.
  Proof.
    intros Hk. destruct s as [[a b] c]. unfold add_block, word_at.
    assert (Hb : ∀ x r, (x = 12 * k + r)%nat → (r < 12)%nat → byte_at k1 x = byte_at k2 x).
    { intros x r -> Hr. apply Hsame. by rewrite -(Nat.div_unique (12 * k + r) 12 k r). }
    rewrite (Hb (4 * (3 * k)) 0)%nat; [lia|lia|]. rewrite (Hb (4 * (3 * k) + 1) 1)%nat; [lia|lia|].
    rewrite (Hb (4 * (3 * k) + 2) 2)%nat; [lia|lia|]. rewrite (Hb (4 * (3 * k) + 3) 3)%nat; [lia|lia|].
    rewrite (Hb (4 * (3 * k + 1)) 4)%nat; [lia|lia|]. rewrite (Hb (4 * (3 * k + 1) + 1) 5)%nat; [lia|lia|].
    rewrite (Hb (4 * (3 * k + 1) + 2) 6)%nat; [lia|lia|]. rewrite (Hb (4 * (3 * k + 1) + 3) 7)%nat; [lia|lia|].
    rewrite (Hb (4 * (3 * k + 2)) 8)%nat; [lia|lia|]. rewrite (Hb (4 * (3 * k + 2) + 1) 9)%nat; [lia|lia|].
    rewrite (Hb (4 * (3 * k + 2) + 2) 10)%nat; [lia|lia|]. rewrite (Hb (4 * (3 * k + 2) + 3) 11)%nat; [lia|lia|].
    done.
  Qed.
  Lemma block_diff s : add_block k1 s i ≠ add_block k2 s i.
  Proof.
    destruct Hdiff as (j & Hj & Hne). destruct s as [[a b] c]. unfold add_block. intros E. apply Hne.
    assert (Ew : ∀ q, (q < 3)%nat → word_at k1 (3 * i + q) = word_at k2 (3 * i + q)).
    { injection E as E0 E1 E2. apply u32_add_inj in E0, E1, E2; try by apply word_at_u32.
      intros q Hq. destruct q as [|[|[|q]]]; [rewrite Nat.add_0_r; exact E0|exact E1|exact E2|lia]. }
    pose proof (Nat.div_mod j 12 ltac:(lia)) as Hdm. rewrite Hj in Hdm.
    pose proof (Nat.mod_upper_bound j 12 ltac:(lia)) as Hr. set (r := (j mod 12)%nat) in *.
    pose proof (Nat.div_mod r 4 ltac:(lia)) as Hdm4. pose proof (Nat.mod_upper_bound r 4 ltac:(lia)) as Hr4.
    assert ((r / 4 < 3)%nat) as Hq by (apply Nat.div_lt_upper_bound; lia).
    pose proof (word_at_inj k1 k2 _ H1 H2 (Ew _ Hq) _ Hr4) as Hb.
    replace j with (4 * (3 * i + r / 4) + r mod 4)%nat by lia. exact Hb.
  Qed.
  Lemma mix_blocks_one n s : u32x3 s →
    if decide (i < n)%nat then mix_blocks k1 n s ≠ mix_blocks k2 n s else mix_blocks k1 n s = mix_blocks k2 n s.
  Proof.
    intros Hs. destruct lookup3_mix_bij as (_ & Hinj & _). induction n as [|n IH]; [done|]. rewrite !mix_blocks_last.
    pose proof (mix_blocks_u32 k1 n s Hs) as U1. pose proof (mix_blocks_u32 k2 n s Hs) as U2.
    destruct (decide (i < S n)%nat) as [Hn|Hn].
    - intros E. apply Hinj in E; [|apply add_block_u32|apply add_block_u32].
      destruct (decide (i < n)%nat) as [Hn'|Hn'].
      + rewrite block_same in E; [lia|]. by apply add_block_inj in E.
      + assert (n = i) as -> by lia. rewrite IH in E. by eapply block_diff.
    - destruct (decide (i < n)%nat) as [Hn'|Hn']; [lia|]. rewrite IH block_same //. lia.
  Qed.
  Lemma core_one_block s : length k1 = length k2 → (i ≤ (length k1 - 1) / 12)%nat → k1 ≠ [] → u32x3 s →
    lookup3_core k1 s ≠ lookup3_core k2 s.
  Proof.
    intros Hl Hi Hne Hs. assert (k2 ≠ []) by (intros ->; by destruct k1). rewrite !lookup3_core_ne //.
    rewrite -Hl. set (n := ((length k1 - 1) / 12)%nat) in *. destruct lookup3_final_bij as (_ & Hinj & _).
    pose proof (mix_blocks_one n s Hs) as Hm. intros E. apply Hinj in E; [|apply add_block_u32|apply add_block_u32].
    destruct (decide (i < n)%nat).
    - rewrite block_same in E; [lia|]. apply add_block_inj in E; [done|by apply mix_blocks_u32|by apply mix_blocks_u32].
    - assert (n = i) as Hn by lia. rewrite Hm Hn in E. by eapply block_diff.
  Qed.
End one_block.

Lemma one_block_state k1 k2 i s : Forall u8 k1 → Forall u8 k2 → length k1 = length k2 → k1 ≠ k2 →
  (∀ j, (j / 12)%nat ≠ i → k1 !! j = k2 !! j) → u32x3 s → lookup3_core k1 s ≠ lookup3_core k2 s.
Proof.
  intros H1 H2 Hl Hne Hsame Hs.
  assert (Hb : ∀ k j, byte_at k j = default 0 (k !! j)).
  { intros k j. unfold byte_at. by rewrite nth_lookup. }
  assert (∃ j, k1 !! j ≠ k2 !! j) as (j & Hj).
  { destruct (decide (Forall (λ j, k1 !! j = k2 !! j) (seq 0 (length k1)))) as [Hf|Hf].
    - exfalso. apply Hne. apply list_eq. intros j. destruct (decide (j < length k1)%nat).
      + rewrite Forall_forall in Hf. apply Hf. apply elem_of_seq. lia.
      + rewrite !lookup_ge_None_2 //; lia.
    - apply not_Forall_Exists in Hf; [|apply _]. apply Exists_exists in Hf as (j & _ & Hj). by exists j. }
  assert (Hji : (j / 12)%nat = i) by (destruct (decide ((j / 12)%nat = i)); [done|]; exfalso; auto).
  assert (Hjl : (j < length k1)%nat).
  { destruct (decide (j < length k1)%nat); [done|]. exfalso. apply Hj. rewrite !lookup_ge_None_2 //; lia. }
  apply (core_one_block k1 k2 i); try done.
  - intros j' Hj'. by rewrite !Hb Hsame.
  - exists j. split; [done|]. rewrite !Hb. destruct (lookup_lt_is_Some_2 k1 j) as [x Hx]; [done|].
    destruct (lookup_lt_is_Some_2 k2 j) as [y Hy]; [by rewrite -Hl|]. rewrite Hx Hy in Hj |- *. simpl. congruence.
  - rewrite -Hji. apply Nat.div_le_mono; lia.
  - intros ->. simpl in Hjl. lia.
Qed.

(** ** Examples *)
Lemma mix_example : u32x3 (0, 0, 1) ∧ final (0, 0, 1) = (3174187776, 3054341061, 4029311561) ∧ mix (1, 2, 3) ≠ mix (1, 2, 4).
Proof. split; [split; [|split]; done|]. split; [by vm_compute|]. by vm_compute. Qed.
Definition other_score : list Z := <[13%nat := 7]> four_score.
Lemma one_block_example : Forall u8 four_score ∧ Forall u8 other_score ∧ four_score ≠ other_score ∧
  ∀ j, (j / 12)%nat ≠ 1%nat → four_score !! j = other_score !! j.
Proof.
  assert (Forall u8 four_score) as HF by (repeat constructor; unfold u8; lia).
  split; [done|]. split; [unfold other_score; apply Forall_insert; [done|unfold u8; lia]|]. split; [by vm_compute|].
  intros j Hj. destruct (decide (j = 13%nat)) as [->|Hne]; [done|]. unfold other_score. by rewrite list_lookup_insert_ne.
Qed.
