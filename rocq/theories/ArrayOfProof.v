(** * Proofs for tommy_arrayof *)
From Verif Require Export ArrayProof.
Global Open Scope Z_scope.

Definition arrayof_inv (st : arrayof) (n k : Z) : Prop :=
  ao_count st = n ∧ ao_element_size st = k ∧ n ≤ ao_bucket_max st ∧
  (ao_bucket_max st = 64 ∨ ao_bucket_max st < 2 * n) ∧
  arrayof_memory_usage st = k * ao_bucket_max st.

Lemma stride_false kk : stride false kk = Z.of_nat kk.
Proof. rewrite /stride. simpl. lia. Qed.

Section arrayof.
  Context `{!memG}.
  Hypothesis Henv : memG_env.

  Definition arrayof_okst (st : arrayof) (kk : nat) (sg : list Z) (own : gmap Z region) : Prop :=
    ao_element_size st = Z.of_nat kk ∧
    seg_ok false kk (ao_bucket st) (ao_bucket_bit st) (ao_bucket_max st) sg own.

  Definition arrayof_pure (st : arrayof) (kk : nat) (A : list Z) (c : nat) (own : gmap Z region) : Prop :=
    ∃ sg, arrayof_okst st kk sg own ∧ A = layout false kk (segs sg) ∧ ao_count st = Z.of_nat c ∧
      Z.of_nat c ≤ ao_bucket_max st ∧ (ao_bucket_max st = 64 ∨ ao_bucket_max st < 2 * Z.of_nat c).
  Definition arrayof_shell st kk A c own : iProp := ⌜arrayof_pure st kk A c own⌝.

  Lemma wp_arrayof_init k cl Φ : 1 ≤ k < 2 ^ 64 →
    hctl cl -∗
    (∀ st A own, ⌜own ##ₘ cl⌝ -∗ arrayof_shell st (Z.to_nat k) A 0 own -∗ zeros false (Z.to_nat k) A -∗ hctl (own ∪ cl) -∗ Φ st) -∗
    wp (arrayof_init k) Φ.
  Proof.
    iIntros (Hk) "Hc HΦ". rewrite /arrayof_init. wp_bind. iApply wp_size_shift; [done|]. wp_bind.
    change (2 ^ ARRAYOF_BIT) with 64.
    iApply (wp_calloc_bytes _ _ ∅ with "[Hc]"); [done|apply map_disjoint_empty_l|done|lia|by rewrite left_id_L|].
    iIntros (a Ha Hab _ _ Hd) "Hc Hz". wp_ret.
    iApply ("HΦ" with "[//] [] Hz Hc").
    iPureIntro. exists [a].
    split; [|split_and!; try done; [|by left]]; last first.
    { change (segs [a]) with [(a, Z.to_nat 64)]. rewrite layout_single stride_false Z2Nat.id //. lia. }
    split; [simpl; lia|].
    assert (Hbk : blocks_ok (<[a := mkreg false (Z.to_nat k) (Z.to_nat 64)]> ∅)).
    { apply blocks_ok_insert; try done. rewrite mkreg_bytes stride_false. lia. }
    split; try done; cbn [ao_bucket].
      + intros s i [= <-] Hi. do 6 (destruct i as [|i]; [done|]). lia.
      + apply NoDup_singleton.
      + lia.
  Qed.

  Lemma wp_arrayof_grow_loop fuel st kk sg own cl n Φ :
    own ##ₘ cl → arrayof_okst st kk sg own → n < 2 ^ 64 → 64 - ao_bucket_bit st ≤ Z.of_nat fuel →
    hctl (own ∪ cl) -∗
    (∀ st' sg' A' own', ⌜own ⊆ own'⌝ -∗ ⌜own' ##ₘ cl⌝ -∗ ⌜arrayof_okst st' kk sg' own'⌝ -∗
      ⌜layout false kk (segs sg') = layout false kk (segs sg) ++ A'⌝ -∗ ⌜ao_count st' = ao_count st⌝ -∗
      ⌜n ≤ ao_bucket_max st'⌝ -∗ ⌜ao_bucket_max st' = ao_bucket_max st ∨ ao_bucket_max st' < 2 * n⌝ -∗
      zeros false kk A' -∗ hctl (own' ∪ cl) -∗ Φ st') -∗
    wp (arrayof_grow_loop fuel st n) Φ.
  Proof.
    iInduction fuel as [|fuel] "IH" forall (st sg own); iIntros (Hd [Hes Hok] Hn Hf) "Hc HΦ"; simpl.
    - pose proof (seg_bit_range Hok). lia.
    - destruct (decide (n > ao_bucket_max st)) as [Hgt|Hle]; last first.
      { wp_ret. iApply ("HΦ" $! st sg [] own with "[//] [//] [//] [] [//] [] [] [] Hc").
        - by rewrite right_id_L. - iPureIntro. lia. - iPureIntro. by left. - by rewrite /zeros. }
      pose proof (seg_max_ge Hok) as Hmg. pose proof (seg_max_bit Hok) as Hmb. pose proof (seg_bit_range Hok) as Hbr.
      wp_bind. rewrite Hes. iApply (wp_calloc_bytes with "Hc"); [done|done|lia|lia|]. rewrite Nat2Z.id -(stride_false kk).
      iIntros (a Ha Hab Hna Hap Hd') "Hc Hz".
      pose proof (seg_grow Hok a Ha Hab Hna (λ b s Hbs, Hap b s (lookup_union_Some_l _ _ _ _ Hbs))) as Hok'.
      pose proof (seg_bit_range Hok') as Hbr'. pose proof (seg_max_bit Hok') as Hmb'. pose proof (seg_small Hok') as Hsm.
      pose proof (stride_pos Hok) as Hsp.
      wp_bind. rewrite /to_ptrdiff. iApply wp_if_true; [nia|]. wp_ret. wp_bind.
      rewrite /seg_set. iApply wp_if_true; [lia|]. wp_ret. wp_bind.
      iApply wp_size_shift; [lia|]. rewrite -Hmb'.
      assert (Hfst : ptr_add a (- wrap (ao_bucket_max st * stride false kk)) = wrap (a - stride false kk * ao_bucket_max st)).
      { rewrite /ptr_add {2}/wrap Z.mod_small; [|nia]. f_equal. lia. }
      rewrite Hfst.
      iApply ("IH" $! (ArrayOf _ _ _ _ _) with "[] [] [] [] Hc [HΦ Hz]").
      { iPureIntro. exact Hd'. } { iPureIntro. split; [apply stride_false|exact Hok']. } { done. } { iPureIntro. simpl. lia. }
      iIntros (st' sg' A' own' Hsub Hd'' Hok'' HA' Hcnt Hmx Hmx2) "Hz' Hc". simpl in *.
      iApply ("HΦ" $! st' sg' (((λ q : nat, a + stride false kk * Z.of_nat q) <$> seq 0 (Z.to_nat (ao_bucket_max st))) ++ A') own' with "[] [//] [//] [] [//] [//] [] [Hz Hz'] Hc").
      + iPureIntro. etrans; [|exact Hsub]. by apply insert_subseteq.
      + iPureIntro. rewrite HA' segs_snoc layout_app layout_single -assoc_L /=. do 4 f_equal.
        rewrite (so_max _ _ _ _ _ _ _ Hok). pose proof (so_ne _ _ _ _ _ _ _ Hok).
        destruct sg as [|? sg0]; [done|]. simpl. rewrite Nat.sub_0_r //.
      + iPureIntro. right. destruct Hmx2 as [->|]; lia.
      + rewrite /zeros big_sepL_app. iFrame.
  Qed.

  Lemma wp_arrayof_grow st kk A c own cl n Φ : own ##ₘ cl → 0 ≤ n < 2 ^ 64 →
    arrayof_shell st kk A c own -∗ hctl (own ∪ cl) -∗
    (∀ st' A' own', ⌜own ⊆ own'⌝ -∗ ⌜own' ##ₘ cl⌝ -∗ arrayof_shell st' kk (A ++ A') (c `max` Z.to_nat n) own' -∗
      zeros false kk A' -∗ hctl (own' ∪ cl) -∗ Φ st') -∗
    wp (arrayof_grow st n) Φ.
  Proof.
    iIntros (Hd Hn (sg & [Hes Hok] & -> & Hcnt & Hc1 & Hc2)) "Hc HΦ". rewrite /arrayof_grow.
    destruct (decide (ao_count st >= n)) as [Hge|Hlt].
    - wp_ret. iApply ("HΦ" $! st [] own with "[//] [//] [] [] Hc"); [|by rewrite /zeros]. iPureIntro.
      exists sg. rewrite right_id_L. replace (c `max` Z.to_nat n)%nat with c by lia. done.
    - pose proof (seg_bit_range Hok).
      iApply (wp_arrayof_grow_loop 64 _ kk sg with "Hc"); [done|split; [exact Hes|exact Hok]|lia|simpl; lia|].
      iIntros (st' sg' A' own' Hsub Hd'' Hok'' HA' Hcnt' Hmx Hmx2) "Hz Hc". simpl in *.
      iApply ("HΦ" with "[//] [//] [] Hz Hc"). iPureIntro. exists sg'. rewrite HA'.
      replace (Z.of_nat (c `max` Z.to_nat n)) with n by lia. split_and!; try done. destruct Hmx2 as [->|]; lia.
  Qed.

  Lemma wp_arrayof_ref st kk A c own i a Φ : (i < c)%nat → A !! i = Some a →
    arrayof_shell st kk A c own -∗ (arrayof_shell st kk A c own -∗ Φ a) -∗ wp (arrayof_ref st (Z.of_nat i)) Φ.
  Proof.
    iIntros (Hi Ha Hsh) "HΦ". pose proof Hsh as (sg & [Hes Hok] & -> & Hcnt & Hc1 & Hc2).
    rewrite /arrayof_ref. wp_assert; [apply bool_decide_eq_true; lia|].
    iApply (wp_seg_pos _ _ _ _ _ _ _ i a _ _ Hok Ha).
    { rewrite /wrap Zmod_mod Hes stride_false. f_equal. lia. } iApply "HΦ". done.
  Qed.

  Lemma wp_arrayof_done_loop st kk sg own0 cl n : ∀ s own Φ,
    arrayof_okst st kk sg own0 → (S s + n)%nat = length sg →
    own ##ₘ cl → own = blkmap false kk (drop (S s) (segs sg)) →
    ([∗ list] i ↦ b ∈ drop (S s) sg, [∗ list] k ∈ region_cells b (mkreg false kk (segsize (S s + i))), ∃ c, k ↦ c) -∗
    hctl (own ∪ cl) -∗ (hctl cl -∗ Φ tt) -∗
    wp (arrayof_done_loop n st (6 + Z.of_nat s)) Φ.
  Proof.
    induction n as [|n IH]; intros s own Φ [Hes Hok] Hs Hd Hown.
    - iIntros "_ Hc HΦ". wp_ret. iApply "HΦ". rewrite Hown drop_ge; [|by rewrite /segs imap_length; lia].
      by rewrite /blkmap left_id_L.
    - iIntros "Hcells Hc HΦ". cbn [arrayof_done_loop]. wp_bind.
      destruct (lookup_lt_is_Some_2 sg (S s)) as [b Hb]; [lia|].
      pose proof (seg_bit_range Hok) as Hbr. pose proof (so_bit _ _ _ _ _ _ _ Hok) as Hbit.
      iApply wp_seg_get; [lia| |].
      { replace (Z.to_nat (6 + Z.of_nat s)) with (6 + s)%nat by lia. by apply (so_S _ _ _ _ _ _ _ Hok). }
      wp_bind. iApply wp_ptrdiff_shift; [lia|]. rewrite -/(pw s).
      destruct (seg_pos Hok _ _ Hb) as [Hb0 Hb1]. cbn [segsize] in Hb1. rewrite -/(pw s) in Hb1.
      pose proof (pw_ge s). pose proof (stride_pos Hok) as Hsp.
      rewrite Hes. rewrite (ptr_add_mod _ _ (stride false kk * pw s)); last first.
      { rewrite stride_false /wrap Zmod_mod. f_equal. apply Z.mul_comm. }
      rewrite ptr_add_adj; [|nia]. replace (b + (stride false kk * pw s - stride false kk * pw s)) with b by lia.
      rewrite (drop_S _ _ _ Hb) big_sepL_cons. iDestruct "Hcells" as "[Hcell Hcells]". rewrite Nat.add_0_r.
      assert (Hsb : segs sg !! S s = Some (b, segsize (S s))) by by rewrite /segs list_lookup_imap Hb.
      rewrite (drop_S _ _ _ Hsb) blkmap_cons /= in Hown.
      assert (Hnd : NoDup (drop (S s) sg)) by (pose proof (so_nd _ _ _ _ _ _ _ Hok) as Hq; rewrite -(take_drop (S s) sg) in Hq; by apply NoDup_app in Hq as (_ & _ & ?)).
      rewrite (drop_S _ _ _ Hb) in Hnd. apply NoDup_cons in Hnd as [Hnb Hnd].
      wp_bind. iApply (wp_free with "Hc [Hcell]"); [lia| | |].
      { apply lookup_union_Some_l. rewrite Hown. apply lookup_insert. } { done. }
      iIntros "Hc". replace (6 + Z.of_nat s + 1) with (6 + Z.of_nat (S s)) by lia.
      assert (Hnone : blkmap false kk (drop (S (S s)) (segs sg)) !! b = None).
      { apply blkmap_None. by rewrite fmap_drop segs_fst. }
      rewrite Hown in Hd |- *. apply map_disjoint_insert_l in Hd as [Hd1 Hd2].
      iApply (IH (S s) _ with "[Hcells] [Hc] HΦ"); [done|lia|exact Hd2|done| |].
      + iApply (big_sepL_mono with "Hcells"). intros i k _. simpl. by rewrite Nat.add_succ_r.
      + rewrite delete_union delete_insert // delete_notin //.
  Qed.

  Lemma wp_arrayof_done st kk A c own cl Φ : own ##ₘ cl →
    arrayof_shell st kk A c own -∗ ([∗ list] a ∈ A, rawelem false kk a) -∗ hctl (own ∪ cl) -∗
    (hctl cl -∗ Φ tt) -∗ wp (arrayof_done st) Φ.
  Proof.
    iIntros (Hd (sg & Hok2 & -> & Hcnt & Hc1 & Hc2)) "Hraw Hc HΦ". rewrite /arrayof_done. wp_bind.
    pose proof Hok2 as [Hes Hok].
    rewrite layout_raw.
    pose proof (so_ne _ _ _ _ _ _ _ Hok) as Hne. destruct sg as [|s0 sg]; [done|].
    iApply wp_seg_get; [done|by apply (so_0 _ _ _ _ _ _ _ Hok); [|lia]|].
    rewrite big_sepL_cons. iDestruct "Hraw" as "[H0 Hraw]".
    destruct (seg_pos Hok s0 0%nat eq_refl) as [Hs0 _]. pose proof (seg_block Hok s0 0%nat eq_refl) as Hb0.
    wp_bind. iApply (wp_free with "Hc H0"); [lia|by apply lookup_union_Some_l|]. iIntros "Hc".
    pose proof (so_own _ _ _ _ _ _ _ Hok) as Hown. pose proof (so_nd _ _ _ _ _ _ _ Hok) as Hnd.
    apply NoDup_cons in Hnd as [Hn0 Hnd].
    rewrite (so_bit _ _ _ _ _ _ _ Hok). replace (Z.to_nat (5 + Z.of_nat (length (s0 :: sg)) - ARRAYOF_BIT)) with (length sg) by (rewrite /ARRAYOF_BIT /=; lia).
    assert (Hown' : own = <[s0 := mkreg false kk (segsize 0)]> (blkmap false kk (drop 1 (segs (s0 :: sg))))) by done.
    assert (Hnone : blkmap false kk (drop 1 (segs (s0 :: sg))) !! s0 = None).
    { apply blkmap_None. by rewrite fmap_drop segs_fst. }
    clear Hown. subst own. apply map_disjoint_insert_l in Hd as [Hd1 Hd2].
    change ARRAYOF_BIT with (6 + Z.of_nat 0).
    iApply (wp_arrayof_done_loop st kk (s0 :: sg) _ cl (length sg) 0 _ with "[Hraw] [Hc] HΦ"); [done|done|exact Hd2|done|done|].
    rewrite delete_union delete_insert // delete_notin //.
  Qed.

  Lemma arrayof_shell_facts st kk A c own : arrayof_shell st kk A c own ⊢
    ⌜(c ≤ length A)%nat ∧ stride false kk * Z.of_nat (length A) < 2 ^ 64 ∧
     arrayof_size st = Z.of_nat c ∧ arrayof_memory_usage st = heap_bytes own ∧ arrayof_inv st (Z.of_nat c) (Z.of_nat kk) ∧
     afacts (stride false kk) A own ∧ (false = true → kk = 1%nat)⌝.
  Proof.
    iIntros ((sg & [Hes Hok] & -> & Hcnt & Hc1 & Hc2)). iPureIntro.
    pose proof (seg_len Hok) as Hl. pose proof (seg_small Hok) as Hs.
    pose proof (seg_bytes Hok) as Hb. pose proof (seg_max_ge Hok). pose proof (stride_pos Hok).
    assert (Hu : arrayof_memory_usage st = Z.of_nat kk * ao_bucket_max st).
    { rewrite /arrayof_memory_usage /wrap Hes -stride_false Z.mod_small; nia. }
    split; [lia|]. rewrite Hl. split; [done|]. split; [done|]. split; [rewrite Hu Hb stride_false; lia|]. split; [done|].
    split; [exact (seg_facts Hok)|done].
  Qed.

  Definition arrayof_ok : array_proof arrayof_a arrayof_inv.
  Proof.
    refine (ArrayProof arrayof_a arrayof_inv _ arrayof_shell wp_arrayof_init _ wp_arrayof_ref
      wp_arrayof_done arrayof_shell_facts _ _ _ _); try (simpl; done).
    intros st kk A c own cl n Φ Hd Hn. apply wp_arrayof_grow; [done|]. simpl in Hn. lia.
  Defined.
End arrayof.
