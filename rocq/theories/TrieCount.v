(** * Number of inner blocks of a trie with given keys *)
From Verif Require Export TrieProof.
Global Open Scope Z_scope.

Lemma shr_shr k b c : 0 ≤ b → 0 ≤ c → shr (shr k b) c = shr k (b + c).
Proof. intros. rewrite /shr Z.shiftr_shiftr //. Qed.
Lemma shr_eq_le k k' b c : 0 ≤ b ≤ c → shr k b = shr k' b → shr k c = shr k' c.
Proof.
  intros Hb H. replace c with (b + (c - b)) by lia. rewrite -(shr_shr k) -?(shr_shr k'); [|lia..]. by rewrite H.
Qed.

(** Bits that the [n]-th level leaves out. *)
Definition lbit (n : nat) : Z := Z.min (3 * (Z.of_nat n + 1)) 27.
Lemma lbit_range n : 0 ≤ lbit n ≤ 27.
Proof. rewrite /lbit. lia. Qed.
Lemma level_bits_eq : level_bits = lbit <$> seq 0 10.
Proof. reflexivity. Qed.

Fixpoint cnt (n : nat) (K : gset Z) : nat :=
  match n with O => O | S n => (size (shared (lbit n) K) + cnt n K)%nat end.
Lemma cnt_inner K : inner_count K = cnt 10 K.
Proof. rewrite /inner_count level_bits_eq. simpl. lia. Qed.

Lemma elem_of_shared b K z : z ∈ shared b K ↔ ∃ k k', k ∈ K ∧ k' ∈ K ∧ k' ≠ k ∧ shr k b = z ∧ shr k' b = z.
Proof.
  rewrite /shared elem_of_map. split.
  - intros (k & -> & Hk). apply elem_of_filter in Hk as [(k' & Hk' & Hne & He) Hk]. exists k, k'. by rewrite He.
  - intros (k & k' & Hk & Hk' & Hne & <- & He). exists k. split; [done|]. apply elem_of_filter. split; [|done]. by exists k'.
Qed.

Lemma shared_split b (dg : Z → Z) (K : gset Z) N : (∀ k k', shr k b = shr k' b → dg k = dg k') →
  size (shared b (filter (λ k, 0 ≤ dg k < Z.of_nat N) K)) =
  sum_list ((λ j : nat, size (shared b (filter (λ k, dg k = Z.of_nat j) K))) <$> seq 0 N).
Proof.
  intros Hdg. induction N as [|N IH].
  - simpl. apply size_empty_iff. intros z. rewrite elem_of_shared. split; [|set_solver].
    intros (k & k' & Hk & _). apply elem_of_filter in Hk. lia.
  - rewrite seq_S fmap_app sum_list_with_app -IH. simpl. rewrite Nat.add_0_r -size_union.
    + f_equal. apply leibniz_equiv. intros z. rewrite elem_of_union !elem_of_shared. split.
      * intros (k & k' & Hk & Hk' & Hne & H1 & H2). apply elem_of_filter in Hk as [Hk0 Hk], Hk' as [Hk0' Hk'].
        assert (dg k = dg k') as He by (apply Hdg; congruence).
        destruct (decide (dg k = Z.of_nat N)); [right|left]; exists k, k'; rewrite !elem_of_filter; repeat split; try done; lia.
      * intros [(k & k' & Hk & Hk' & Hne & H1 & H2)|(k & k' & Hk & Hk' & Hne & H1 & H2)]; exists k, k';
          apply elem_of_filter in Hk as [Hk0 Hk], Hk' as [Hk0' Hk']; rewrite !elem_of_filter; repeat split; try done; lia.
    + intros z. rewrite !elem_of_shared. intros (k & k' & Hk & _ & _ & H1 & _) (k2 & k2' & Hk2 & _ & _ & H2 & _).
      apply elem_of_filter in Hk, Hk2. assert (dg k = dg k2) by (apply Hdg; congruence). lia.
Qed.

Lemma sum_fmap_add (f g : nat → nat) l : sum_list ((λ j, (f j + g j)%nat) <$> l) = (sum_list (f <$> l) + sum_list (g <$> l))%nat.
Proof. induction l as [|j l IH]; [done|]. csimpl. rewrite /id in IH |- *. lia. Qed.
Lemma sum_fmap_ext (f g : nat → nat) l : (∀ j, j ∈ l → f j = g j) → sum_list (f <$> l) = sum_list (g <$> l).
Proof. intros H. f_equal. apply list_fmap_ext. intros i j Hj. apply H. by eapply elem_of_list_lookup_2. Qed.
Lemma length_bind {A} (bf : nat → list A) l : length (l ≫= bf) = sum_list ((λ j, length (bf j)) <$> l).
Proof. induction l as [|j l IH]; [done|]. csimpl. rewrite app_length IH. done. Qed.

Lemma cnt_split n (dg : Z → Z) (K : gset Z) N : (∀ k, k ∈ K → 0 ≤ dg k < Z.of_nat N) →
  (∀ m k k', (m < n)%nat → shr k (lbit m) = shr k' (lbit m) → dg k = dg k') →
  sum_list ((λ j : nat, cnt n (filter (λ k, dg k = Z.of_nat j) K)) <$> seq 0 N) = cnt n K.
Proof.
  intros HK. induction n as [|n IH]; intros Hdg.
  - simpl. rewrite sum_list_fmap_const. lia.
  - cbn [cnt]. rewrite (sum_fmap_add (λ j : nat, size (shared (lbit n) (filter (λ k, dg k = Z.of_nat j) K)))).
    rewrite IH; [|intros m k k' Hm; apply Hdg; lia]. rewrite -shared_split; [|intros k k'; apply Hdg; lia].
    f_equal. f_equal. f_equal. apply leibniz_equiv. intros k. rewrite elem_of_filter. naive_solver.
Qed.

Lemma cnt_small n (K : gset Z) : (∀ k k', k ∈ K → k' ∈ K → k = k') → cnt n K = 0%nat.
Proof.
  intros H. induction n as [|n IH]; [done|]. cbn [cnt]. rewrite IH Nat.add_0_r. apply size_empty_iff. intros z. rewrite elem_of_shared. split; [|set_solver].
  intros (k & k' & Hk & Hk' & Hne & _). by destruct Hne; auto.
Qed.
Lemma size_shared_one b (K : gset Z) : (2 ≤ size K)%nat → (∀ k k', k ∈ K → k' ∈ K → shr k b = shr k' b) → size (shared b K) = 1%nat.
Proof.
  intros Hs HK. destruct (set_choose_L K) as [k Hk]; [intros ->; rewrite size_empty in Hs; lia|].
  destruct (set_choose_L (K ∖ {[k]})) as [k' Hk'].
  { intros He. assert (K = {[k]}) as HK1 by (apply leibniz_equiv; intros z; rewrite elem_of_singleton; split; [|by intros ->]; intros Hz; destruct (decide (z = k)); [done|];
      exfalso; apply (not_elem_of_empty (C := gset Z) z); rewrite -He; apply elem_of_difference; by rewrite elem_of_singleton). rewrite HK1 in Hs. rewrite size_singleton in Hs. lia. }
  rewrite (_ : shared b K = {[shr k b]}); [by rewrite size_singleton|]. apply leibniz_equiv. intros z. rewrite elem_of_shared elem_of_singleton. split.
  - intros (k1 & k2 & H1 & H2 & _ & <- & _). by apply HK.
  - intros ->. exists k, k'. apply elem_of_difference in Hk' as [Hk' Hne]. split; [done|]. split; [done|]. split; [by intros ->; apply Hne, elem_of_singleton|]. split; [done|]. by apply HK.
Qed.

Lemma dom_sub dg j (ks : kmapT) : dom (sub dg j ks) = filter (λ k, dg k = j) (dom ks).
Proof.
  apply leibniz_equiv. intros k. rewrite elem_of_filter !elem_of_dom sub_lookup. destruct (decide (dg k = j)); [naive_solver|].
  split; [by intros []|naive_solver].
Qed.

Lemma lbit_dig n m k k' : (n < 10)%nat → (m < n)%nat → shr k (lbit m) = shr k' (lbit m) → dig n k = dig n k'.
Proof.
  intros Hn Hm H. rewrite /dig. f_equal. apply (shr_eq_le _ _ (lbit m)); [|done]. rewrite /lbit. lia.
Qed.
Lemma agree_lbit n k k' : (n < 10)%nat → agree (S n) k k' → shr k (lbit n) = shr k' (lbit n).
Proof.
  intros Hn [H1 H2]. rewrite /lbit. destruct (decide (n = 9%nat)) as [->|]; [done|].
  replace (Z.min (3 * (Z.of_nat n + 1)) 27) with (3 * Z.of_nat (S n)) by lia. done.
Qed.

(** The bucket of a key. *)
Definition bdig (k : Z) : Z := shr k 27.

Section count.
  Context `{!memG}.
  Variables bs : Z.

  Lemma kids_length N dg n b ks bl : (∀ k, is_Some (ks !! k) → 0 ≤ dg k < Z.of_nat N) →
    (∀ m k k', (m < n)%nat → shr k (lbit m) = shr k' (lbit m) → dg k = dg k') →
    (∀ j h bl, trieR bs n h (sub dg j ks) bl -∗ ⌜length bl = cnt n (dom (sub dg j ks))⌝) →
    kids N dg (trieR bs n) b ks bl -∗ ⌜length bl = cnt n (dom ks)⌝.
  Proof.
    iIntros (Hr Hdg HT) "(%hf & %bf & %Hbl & H)".
    iAssert ([∗ list] j ∈ seq 0 N, ⌜length (bf j) = cnt n (dom (sub dg (Z.of_nat j) ks))⌝)%I with "[H]" as "H".
    { iApply (big_sepL_impl with "H"). iIntros "!>" (i j _) "[_ H]". by iApply HT. }
    iDestruct (big_sepL_pure_1 with "H") as %Hl. iPureIntro. rewrite Hbl length_bind.
    rewrite -(cnt_split n dg (dom ks) N); [|by intros k Hk%elem_of_dom; apply Hr|done]. apply sum_fmap_ext.
    intros j Hj. apply elem_of_list_lookup in Hj as [i Hi]. rewrite (Hl _ _ Hi). by rewrite dom_sub.
  Qed.

  Lemma trieR_length n h ks bl : (n ≤ 10)%nat → (∀ k k', is_Some (ks !! k) → is_Some (ks !! k') → agree n k k') →
    trieR bs n h ks bl -∗ ⌜length bl = cnt n (dom ks)⌝.
  Proof.
    revert h ks bl. induction n as [|n IH]; intros h ks bl Hn Hag; rewrite trieR_cases; iIntros "[H|[H|H]]".
    1,4: iDestruct "H" as %(-> & -> & ->); iPureIntro; rewrite dom_empty_L cnt_small //; set_solver.
    1,3: iDestruct "H" as (k l [-> ->]) "_"; iPureIntro; rewrite dom_singleton_L cnt_small //; set_solver.
    - iDestruct "H" as (n' [=]) "_".
    - iDestruct "H" as (n' [= <-] b bl1 (-> & Hi & Hbl & Hsz)) "[_ Hk]".
      iDestruct (kids_length with "Hk") as %Hl.
      + intros. apply dig_range.
      + intros m k k' Hm. apply lbit_dig; lia.
      + intros j h bl0. apply IH; [lia|]. intros k k'. rewrite !sub_lookup.
        destruct (decide (dig n k = j)); [|by intros []]. destruct (decide (dig n k' = j)); [|by intros ? []].
        intros. apply agree_S; [by apply Hag|congruence].
      + iPureIntro. rewrite Hbl. cbn [cnt length]. rewrite size_shared_one; [by rewrite Hl|by rewrite size_dom|].
        intros k k' Hk%elem_of_dom Hk'%elem_of_dom. apply agree_lbit; [lia|]. by apply Hag.
  Qed.

  Lemma buckets_length tb ks bl : (∀ k, is_Some (ks !! k) → 0 ≤ k < 2 ^ 32) →
    kids 32 bdig (trieR bs 10) tb ks bl -∗ ⌜length bl = inner_count (dom ks)⌝.
  Proof.
    iIntros (Hr) "H". rewrite cnt_inner. iApply (kids_length with "H").
    - intros k Hk. apply Hr in Hk. rewrite /bdig shr_div; [|lia]. split; [apply Z.div_pos; lia|]. apply Z.div_lt_upper_bound; lia.
    - intros m k k' Hm He. apply (shr_eq_le _ _ (lbit m)); [|done]. pose proof (lbit_range m). lia.
    - intros j h bl0. apply trieR_length; [done|]. intros k k'. rewrite !sub_lookup.
      destruct (decide _) as [H1|]; [|by intros []]. destruct (decide _) as [H2|]; [|by intros ? []]. intros _ _. apply agree_10. rewrite /bdig in H1, H2. congruence.
  Qed.
End count.
