(** * The number of accesses of the growth of the arrays. *)
From Verif Require Export Cost CostArraySpec.
From Verif Require Import Array.
Global Open Scope Z_scope.

Lemma am_calloc_words n : at_most 0 (calloc_words n).
Proof. unfold calloc_words. destruct (decide _); am_prim. Qed.
Lemma am_calloc_bytes n sz : at_most 0 (calloc_bytes n sz).
Proof. unfold calloc_bytes. destruct (decide _); am_prim. Qed.
Lemma am_seg_set b i p : at_most 0 (seg_set b i p). Proof. unfold seg_set. am. Qed.
Lemma am_size_shift b : at_most 0 (size_shift b). Proof. unfold size_shift. am. Qed.
Lemma am_ptrdiff_shift b : at_most 0 (ptrdiff_shift b). Proof. unfold ptrdiff_shift. am. Qed.
Lemma am_to_ptrdiff b : at_most 0 (to_ptrdiff b). Proof. unfold to_ptrdiff. am. Qed.
Global Hint Resolve am_calloc_words am_calloc_bytes am_seg_set am_size_shift am_ptrdiff_shift am_to_ptrdiff : am.

(** ** tommyarray *)
Lemma cr_grow_loop n : ∀ fuel t, ar_count t = n → costs_ret 0 (array_grow_loop fuel t n) (λ t', ar_count t' = n).
Proof.
  induction fuel as [|fuel IH]; intros t Ht; cbn [array_grow_loop]; (destruct (decide _); [|by apply cr_ret]); [apply cr_fuel|].
  do 2 (eapply (cr_bind 0 0 _ _ (λ _, True)); [apply am_cr; eauto with am nocore|intros ? _]).
  eapply (cr_bind 0 0 _ _ (λ _, True)); [apply am_cr; eauto with am nocore|intros ? _]. cbn zeta.
  eapply (cr_bind 0 0 _ _ (λ _, True)); [apply am_cr; eauto with am nocore|intros ? _]. by apply IH.
Qed.
Lemma cr_grow t n : costs_ret 0 (array_grow t n) (λ t', ar_count t' = Z.max (ar_count t) n).
Proof.
  unfold array_grow. destruct (decide _).
  - apply cr_ret. lia.
  - eapply cr_le; [by apply cr_grow_loop|done|]. intros t' ->. simpl in *. lia.
Qed.
Lemma am_grow t n : at_most 0 (array_grow t n).
Proof. eapply cr_am, cr_grow. Qed.
Global Hint Resolve am_grow : am.
Lemma am_array_insert t e : at_most 1 (array_insert t e).
Proof. unfold array_insert. am. Qed.
Global Hint Resolve am_array_insert : am.
Lemma am_array_done_loop n : ∀ t i, at_most 0 (array_done_loop n t i).
Proof. induction n as [|n IH]; intros t i; simpl; am. Qed.
Global Hint Resolve am_array_done_loop : am.
Lemma am_array_done t : at_most 0 (array_done t).
Proof. unfold array_done. am. Qed.
Lemma cr_array_init : costs_ret 0 array_init (λ t, ar_count t = 0).
Proof.
  unfold array_init. do 2 (eapply (cr_bind 0 0 _ _ (λ _, True)); [apply am_cr; eauto with am nocore|intros ? _]). by apply cr_ret.
Qed.
Lemma am_array_appends es : ∀ t, at_most (length es) (array_appends t es).
Proof.
  induction es as [|e es IH]; intros t; simpl; [apply am_ret|].
  apply (am_bind 1 (length es)); [apply am_array_insert|done].
Qed.
Lemma am_array_of es : at_most (length es) (array_of es).
Proof. apply (am_bind 0 (length es)); [eapply cr_am, cr_array_init|intros ?; apply am_array_appends]. Qed.

(** ** tommyarrayof *)
Lemma am_arrayof_grow_loop n : ∀ fuel t, at_most 0 (arrayof_grow_loop fuel t n).
Proof.
  induction fuel as [|fuel IH]; intros t; cbn [arrayof_grow_loop]; (destruct (decide _); [|apply am_ret]); [apply am_fuel|].
  cbn zeta. am.
Qed.
Global Hint Resolve am_arrayof_grow_loop : am.
Lemma am_arrayof_grow t n : at_most 0 (arrayof_grow t n).
Proof. unfold arrayof_grow. am. Qed.
Lemma am_arrayof_done_loop n : ∀ t i, at_most 0 (arrayof_done_loop n t i).
Proof. induction n as [|n IH]; intros t i; simpl; am. Qed.
Global Hint Resolve am_arrayof_done_loop : am.
Lemma am_arrayof_done t : at_most 0 (arrayof_done t).
Proof. unfold arrayof_done. am. Qed.

(** ** tommyarrayblk *)
Lemma blocks_wrap n : 0 ≤ n → sub64 (add64 n 4096) 1 / 4096 ≤ blocks_for n.
Proof.
  intros Hn. unfold blocks_for. apply Z.div_le_mono; [done|]. unfold sub64, add64, wrap.
  rewrite Zminus_mod_idemp_l. replace (n + 4096 - 1) with (n + 4095) by lia. apply Z.mod_le; lia.
Qed.
Lemma blocks_exact n : 0 ≤ n < 2 ^ 64 - 4095 → sub64 (add64 n 4096) 1 / 4096 = blocks_for n.
Proof.
  intros Hn. unfold blocks_for. f_equal. unfold sub64, add64, wrap.
  rewrite Zminus_mod_idemp_l. replace (n + 4096 - 1) with (n + 4095) by lia. apply Z.mod_small; lia.
Qed.
Lemma blocks_mono a b : a ≤ b → blocks_for a ≤ blocks_for b.
Proof. intros H. unfold blocks_for. apply Z.div_le_mono; lia. Qed.
Lemma am_blk_alloc n : ∀ b i, at_most n (arrayblk_alloc n b i).
Proof. induction n as [|n IH]; intros b i; simpl; am. Qed.
Lemma am_blkof_alloc sz n : ∀ b i, at_most n (arrayblkof_alloc sz n b i).
Proof. induction n as [|n IH]; intros b i; [apply am_ret|]. change (at_most (S n) (ptr ← calloc_bytes ARRAYBLKOF_SIZE sz; array_set b i ptr;; arrayblkof_alloc sz n b (add64 i 1))). am. Qed.
Lemma am_blk_grow t n : 0 ≤ n → at_most (Z.to_nat (blocks_for n - array_size (ab_block t))) (arrayblk_grow t n).
Proof.
  intros Hn. pose proof (blocks_wrap n Hn) as Hb. unfold arrayblk_grow. change ARRAYBLK_SIZE with 4096. cbn zeta.
  destruct (decide _); [eapply am_le; [apply am_ret|lia]|]. destruct (decide _); [|eapply am_le; [apply am_ret|lia]].
  eapply am_le; [eapply am_bind; [apply am_grow|intros b; eapply am_bind; [apply am_blk_alloc|intros ?; apply am_ret]]|]. lia.
Qed.
Lemma am_blkof_grow t n : 0 ≤ n → at_most (Z.to_nat (blocks_for n - array_size (abo_block t))) (arrayblkof_grow t n).
Proof.
  intros Hn. pose proof (blocks_wrap n Hn) as Hb. unfold arrayblkof_grow. change ARRAYBLKOF_SIZE with 4096. cbn zeta.
  destruct (decide _); [eapply am_le; [apply am_ret|lia]|]. destruct (decide _); [|eapply am_le; [apply am_ret|lia]].
  eapply am_le; [eapply am_bind; [apply am_grow|intros b; eapply am_bind; [apply am_blkof_alloc|intros ?; apply am_ret]]|]. lia.
Qed.
Lemma am_blocks_free n : ∀ b i, at_most n (blocks_free n b i).
Proof. induction n as [|n IH]; intros b i; simpl; am. Qed.
Lemma am_blk_done t : at_most (Z.to_nat (array_size (ab_block t))) (arrayblk_done t).
Proof. unfold arrayblk_done. eapply am_le; [eapply am_bind; [apply am_blocks_free|intros ?; apply am_array_done]|]. lia. Qed.
Lemma am_blkof_done t : at_most (Z.to_nat (array_size (abo_block t))) (arrayblkof_done t).
Proof. unfold arrayblkof_done. eapply am_le; [eapply am_bind; [apply am_blocks_free|intros ?; apply am_array_done]|]. lia. Qed.

(** A blocked array of [c] elements with just the blocks that it needs. *)
Definition blk_has (c : Z) (t : arrayblk) : Prop := ab_count t = c ∧ array_size (ab_block t) = blocks_for c.
Lemma cr_blk_insert c t e : 0 ≤ c < 2 ^ 64 - 4096 → blk_has c t →
  costs_ret (2 + Z.to_nat (blocks_for (c + 1) - blocks_for c)) (arrayblk_insert t e) (blk_has (c + 1)).
Proof.
  intros Hc [H1 H2]. unfold arrayblk_insert. cbn zeta. rewrite H1.
  assert (Ha : add64 c 1 = c + 1) by (unfold add64, wrap; apply Z.mod_small; lia). rewrite Ha.
  eapply (cr_le _ _ _ (blk_has (c + 1))); [eapply (cr_bind (Z.to_nat (blocks_for (c + 1) - blocks_for c)) 2 _ _ (blk_has (c + 1)))|lia|done].
  - unfold arrayblk_grow. change ARRAYBLK_SIZE with 4096. cbn zeta. rewrite H1 blocks_exact; [lia|]. rewrite decide_False; [lia|]. rewrite H2.
    pose proof (blocks_mono c (c + 1)). destruct (decide (_ < _)).
    + eapply (cr_le _ _ _ (blk_has (c + 1))); [eapply (cr_bind 0 _ _ _ _ _ (cr_grow _ _)); intros b Hb; eapply (cr_bind _ 0 _ _ (λ _, True)); [apply am_cr, am_blk_alloc|intros _ _]; apply cr_ret|lia|done].
      split; [done|]. simpl. unfold array_size in *. rewrite Hb. lia.
    + eapply (cr_le _ 0); [apply (cr_ret _ (blk_has (c + 1)))|lia|done]. split; [done|]. simpl. rewrite H2. lia.
  - intros t' Ht'. eapply (cr_le _ _ _ (blk_has (c + 1))); [eapply (cr_bind 2 0 _ _ (λ _, True)); [apply am_cr, am_arrayblk_set|intros _ _]; by apply cr_ret|lia|done].
Qed.
Lemma am_blk_appends es : ∀ c t, 0 ≤ c → c + Z.of_nat (length es) < 2 ^ 64 - 4095 → blk_has c t →
  at_most (2 * length es + Z.to_nat (blocks_for (c + Z.of_nat (length es)) - blocks_for c)) (arrayblk_appends t es).
Proof.
  induction es as [|e es IH]; intros c t Hc Hl Ht; cbn [arrayblk_appends length] in *; [eapply am_le; [apply am_ret|lia]|].
  eapply am_le; [eapply cr_am, (cr_bind _ _ _ _ (blk_has (c + 1)) (λ _, True)); [apply (cr_blk_insert c); [lia|done]|]; intros t' Ht'; apply am_cr, (IH (c + 1)); [lia|lia|done]|].
  replace (c + Z.of_nat (S (length es))) with (c + 1 + Z.of_nat (length es)) by lia.
  pose proof (blocks_mono c (c + 1)). pose proof (blocks_mono (c + 1) (c + 1 + Z.of_nat (length es))). lia.
Qed.
Lemma am_blk_of es : Z.of_nat (length es) < 2 ^ 64 - 4095 →
  at_most (2 * length es + Z.to_nat (blocks_for (Z.of_nat (length es)))) (arrayblk_of es).
Proof.
  intros Hl. unfold arrayblk_of. eapply am_le; [eapply cr_am, (cr_bind 0 _ _ _ (blk_has 0) (λ _, True))|].
  - unfold arrayblk_init. eapply (cr_bind 0 0 _ _ _ _ cr_array_init). intros b Hb. by apply cr_ret.
  - intros t Ht. apply am_cr, (am_blk_appends es 0); [lia|lia|done].
  - rewrite Z.add_0_l. change (blocks_for 0) with 0. lia.
Qed.

(** ** Runs *)
From Verif Require Import ExamplesArray.
Lemma ok_of {A} (r : res A) (f : A → Z * Z) (v : Z * Z) : match r with Ok t _ => f t | _ => (-1, -1) end = v → v ≠ (-1, -1) →
  ∃ t m', r = Ok t m' ∧ f t = v.
Proof. intros H Hv. destruct r as [t m'| | |]; [by exists t, m'|congruence..]. Qed.
(** 200 elements: two more segments are allocated on the way. *)
Lemma ex_array_of : ∃ t m', array_of (replicate 200 7) exa_m = Ok t m' ∧ (array_size t, ar_bucket_max t) = (200, 256).
Proof. apply ok_of; [vm_compute; reflexivity|done]. Qed.
Lemma ex_arrayblk_of : ∃ t m', arrayblk_of (replicate 200 7) exa_m = Ok t m' ∧ (arrayblk_size t, array_size (ab_block t)) = (200, 1).
Proof. apply ok_of; [vm_compute; reflexivity|done]. Qed.
