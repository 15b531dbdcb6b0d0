(** * Proofs for tommy_array and tommy_arrayof *)
From Verif Require Export ArraySeg.
Global Open Scope Z_scope.

Section calloc.
  Context `{!memG}.

  Lemma wp_calloc_elems w kk n r own cl (c : M Z) Φ :
    memG_env → own ##ₘ cl → r = mkreg w kk n → c = alloc_region r (unit_cell w 0) →
    hctl (own ∪ cl) -∗
    (∀ a, ⌜0 < a⌝ -∗ ⌜a + stride w kk * Z.of_nat n < 2 ^ 64⌝ -∗ ⌜own !! a = None⌝ -∗
      ⌜∀ b s, (own ∪ cl) !! b = Some s → apart a (stride w kk * Z.of_nat n) b (region_bytes s)⌝ -∗
      ⌜<[a := mkreg w kk n]> own ##ₘ cl⌝ -∗ hctl (<[a := mkreg w kk n]> own ∪ cl) -∗
      zeros w kk ((λ q : nat, a + stride w kk * Z.of_nat q) <$> seq 0 n) -∗ Φ a) -∗
    wp c Φ.
  Proof.
    iIntros (Henv Hd -> ->) "Hc HΦ". iApply (wp_alloc_region with "Hc"); [done|].
    iIntros (a Ha _ Hab Hn Hap) "Hc Hcells". rewrite mkreg_bytes in Hab Hap.
    apply lookup_union_None in Hn as [Hn1 Hn2].
    iApply ("HΦ" with "[//] [//] [//] [] [] [Hc] [Hcells]").
    - iPureIntro. exact Hap.
    - iPureIntro. by apply map_disjoint_insert_l_2.
    - by rewrite insert_union_l.
    - by iApply region_zeros.
  Qed.

  Lemma wp_calloc_words n own cl Φ : memG_env → own ##ₘ cl → 0 ≤ n →
    hctl (own ∪ cl) -∗
    (∀ a, ⌜0 < a⌝ -∗ ⌜a + stride true 1 * n < 2 ^ 64⌝ -∗ ⌜own !! a = None⌝ -∗
      ⌜∀ b s, (own ∪ cl) !! b = Some s → apart a (stride true 1 * n) b (region_bytes s)⌝ -∗
      ⌜<[a := mkreg true 1 (Z.to_nat n)]> own ##ₘ cl⌝ -∗ hctl (<[a := mkreg true 1 (Z.to_nat n)]> own ∪ cl) -∗
      zeros true 1 ((λ q : nat, a + stride true 1 * Z.of_nat q) <$> seq 0 (Z.to_nat n)) -∗ Φ a) -∗
    wp (calloc_words n) Φ.
  Proof.
    iIntros (Henv Hd Hn) "Hc HΦ". rewrite /calloc_words. case_decide; last first.
    { rewrite wp_unseal. iIntros (m) "Hm". done. }
    iApply (wp_calloc_elems true 1 (Z.to_nat n) with "Hc"); [done|done| |done|].
    { rewrite /mkreg. f_equal. lia. }
    rewrite Z2Nat.id //.
  Qed.

  Lemma wp_calloc_bytes n k own cl Φ : memG_env → own ##ₘ cl → 0 ≤ n → 0 ≤ k →
    hctl (own ∪ cl) -∗
    (∀ a, ⌜0 < a⌝ -∗ ⌜a + k * n < 2 ^ 64⌝ -∗ ⌜own !! a = None⌝ -∗
      ⌜∀ b s, (own ∪ cl) !! b = Some s → apart a (k * n) b (region_bytes s)⌝ -∗
      ⌜<[a := mkreg false (Z.to_nat k) (Z.to_nat n)]> own ##ₘ cl⌝ -∗
      hctl (<[a := mkreg false (Z.to_nat k) (Z.to_nat n)]> own ∪ cl) -∗
      zeros false (Z.to_nat k) ((λ q : nat, a + k * Z.of_nat q) <$> seq 0 (Z.to_nat n)) -∗ Φ a) -∗
    wp (calloc_bytes n k) Φ.
  Proof.
    iIntros (Henv Hd Hn Hk) "Hc HΦ". rewrite /calloc_bytes. case_decide; last first.
    { rewrite wp_unseal. iIntros (m) "Hm". done. }
    iApply (wp_calloc_elems false (Z.to_nat k) (Z.to_nat n) with "Hc"); [done|done| |done|].
    { rewrite /mkreg. f_equal. lia. }
    assert (stride false (Z.to_nat k) = k) as -> by (rewrite /stride; simpl; lia).
    rewrite Z2Nat.id //.
  Qed.
End calloc.

Lemma shl64_1 b : 0 ≤ b < 64 → shl64 1 b = 2 ^ b.
Proof.
  intros Hb. rewrite /shl64 Z.shiftl_mul_pow2; [|lia]. rewrite Z.mul_1_l Z.mod_small //.
  split; [apply Z.pow_nonneg; lia|]. apply Z.pow_lt_mono_r; lia.
Qed.

Section seg_free.
  Context `{!memG}.
  Lemma wp_size_shift b Φ : 0 ≤ b < 64 → Φ (2 ^ b) ⊢ wp (size_shift b) Φ.
  Proof. iIntros (Hb) "H". rewrite /size_shift. iApply wp_if_true; [done|]. wp_ret. by rewrite shl64_1. Qed.
  Lemma wp_ptrdiff_shift b Φ : 0 ≤ b < 63 → Φ (2 ^ b) ⊢ wp (ptrdiff_shift b) Φ.
  Proof. iIntros (Hb) "H". rewrite /ptrdiff_shift. iApply wp_if_true; [done|]. wp_ret. rewrite shl64_1 //. lia. Qed.

  Lemma big_sepL_imap' {A B} (f : nat → A → B) (P : B → iProp) l :
    ([∗ list] y ∈ imap f l, P y) ⊣⊢ [∗ list] i ↦ x ∈ l, P (f i x).
  Proof. revert f. induction l as [|x l IH]; intros f; [done|]. simpl. by rewrite IH. Qed.

  (** The memory of the segments. *)
  Lemma layout_raw w kk sg :
    ([∗ list] a ∈ layout w kk (segs sg), rawelem w kk a) ⊢
    [∗ list] i ↦ b ∈ sg, [∗ list] k ∈ region_cells b (mkreg w kk (segsize i)), ∃ c, k ↦ c.
  Proof.
    rewrite /layout big_sepL_bind /segs big_sepL_imap'. apply big_sepL_mono. intros i b Hb. simpl. apply ArrayHist.region_raw.
  Qed.
End seg_free.

(** ** tommy_array *)
Definition array_inv (st : array) (n k : Z) : Prop :=
  ar_count st = n ∧ n ≤ ar_bucket_max st ∧ (ar_bucket_max st = 64 ∨ ar_bucket_max st < 2 * n) ∧
  array_memory_usage st = 8 * ar_bucket_max st.

Section array.
  Context `{!memG}.
  Hypothesis Henv : memG_env.

  Definition array_okst (st : array) (sg : list Z) (own : gmap Z region) : Prop :=
    seg_ok true 1 (ar_bucket st) (ar_bucket_bit st) (ar_bucket_max st) sg own.

  Definition array_pure (st : array) (kk : nat) (A : list Z) (c : nat) (own : gmap Z region) : Prop :=
    ∃ sg, kk = 1%nat ∧ array_okst st sg own ∧ A = layout true 1 (segs sg) ∧ ar_count st = Z.of_nat c ∧
      Z.of_nat c ≤ ar_bucket_max st ∧ (ar_bucket_max st = 64 ∨ ar_bucket_max st < 2 * Z.of_nat c).
  Definition array_shell st kk A c own : iProp := ⌜array_pure st kk A c own⌝.

  Lemma wp_array_init cl Φ :
    hctl cl -∗
    (∀ st A own, ⌜own ##ₘ cl⌝ -∗ array_shell st 1 A 0 own -∗ zeros true 1 A -∗ hctl (own ∪ cl) -∗ Φ st) -∗
    wp array_init Φ.
  Proof.
    iIntros "Hc HΦ". rewrite /array_init. wp_bind. iApply wp_size_shift; [done|]. wp_bind.
    iApply (wp_calloc_words _ ∅ with "[Hc]"); [done|apply map_disjoint_empty_l|done|by rewrite left_id_L|].
    change (2 ^ ARRAY_BIT) with 64.
    iIntros (a Ha Hab _ _ Hd) "Hc Hz". wp_ret.
    iApply ("HΦ" with "[//] [] Hz Hc"). iPureIntro. exists [a].
    split; [done|]. split; [|split_and!; try done; by left].
    split; simpl; try done.
      + intros s i [= <-] Hi. do 6 (destruct i as [|i]; [done|]). lia.
      + apply NoDup_singleton.
      + apply blocks_ok_insert; done.
  Qed.

  Lemma wp_array_grow_loop fuel st sg own cl n Φ :
    own ##ₘ cl → array_okst st sg own → n < 2 ^ 64 → 64 - ar_bucket_bit st ≤ Z.of_nat fuel →
    hctl (own ∪ cl) -∗
    (∀ st' sg' A' own', ⌜own ⊆ own'⌝ -∗ ⌜own' ##ₘ cl⌝ -∗ ⌜∀ X, X ⊆ cl → blocks_ok (own ∪ X) → blocks_ok (own' ∪ X)⌝ -∗
      ⌜array_okst st' sg' own'⌝ -∗
      ⌜layout true 1 (segs sg') = layout true 1 (segs sg) ++ A'⌝ -∗ ⌜ar_count st' = ar_count st⌝ -∗
      ⌜n ≤ ar_bucket_max st'⌝ -∗ ⌜ar_bucket_max st' = ar_bucket_max st ∨ ar_bucket_max st' < 2 * n⌝ -∗
      zeros true 1 A' -∗ hctl (own' ∪ cl) -∗ Φ st') -∗
    wp (array_grow_loop fuel st n) Φ.
  Proof.
    iInduction fuel as [|fuel] "IH" forall (st sg own); iIntros (Hd Hok Hn Hf) "Hc HΦ"; simpl.
    - pose proof (seg_bit_range Hok). lia.
    - destruct (decide (n > ar_bucket_max st)) as [Hgt|Hle]; last first.
      { wp_ret. iApply ("HΦ" $! st sg [] own with "[//] [//] [] [//] [] [//] [] [] [] Hc").
        - by iIntros.
        - by rewrite right_id_L. - iPureIntro. lia. - iPureIntro. by left. - by rewrite /zeros. }
      pose proof (seg_max_ge Hok) as Hmg. pose proof (seg_max_bit Hok) as Hmb. pose proof (seg_bit_range Hok) as Hbr.
      wp_bind. iApply (wp_calloc_words with "Hc"); [done|done|lia|].
      iIntros (a Ha Hab Hna Hap Hd') "Hc Hz".
      pose proof (seg_grow Hok a Ha Hab Hna (λ b s Hbs, Hap b s (lookup_union_Some_l _ _ _ _ Hbs))) as Hok'.
      pose proof (seg_bit_range Hok') as Hbr'. pose proof (seg_max_bit Hok') as Hmb'. pose proof (seg_small Hok') as Hsm.
      change (stride true 1) with 8 in Hsm.
      wp_bind. rewrite /to_ptrdiff. iApply wp_if_true; [lia|]. wp_ret. wp_bind.
      rewrite /seg_set. iApply wp_if_true; [lia|]. wp_ret. wp_bind.
      iApply wp_size_shift; [lia|]. rewrite -Hmb'.
      assert (Hfst : ptr_add a (- (8 * ar_bucket_max st)) = wrap (a - stride true 1 * ar_bucket_max st)) by done.
      rewrite Hfst.
      iApply ("IH" $! (Array _ _ _ _) with "[] [] [] [] Hc [HΦ Hz]").
      { iPureIntro. exact Hd'. } { iPureIntro. exact Hok'. } { done. } { iPureIntro. simpl. lia. }
      iIntros (st' sg' A' own' Hsub Hd'' Hbk Hok'' HA' Hcnt Hmx Hmx2) "Hz' Hc". cbn [ar_bucket ar_bucket_max ar_count ar_bucket_bit] in *.
      iApply ("HΦ" $! st' sg' (((λ q : nat, a + stride true 1 * Z.of_nat q) <$> seq 0 (Z.to_nat (ar_bucket_max st))) ++ A') own' with "[] [//] [] [//] [] [//] [//] [] [Hz Hz'] Hc").
      + iPureIntro. etrans; [|exact Hsub]. by apply insert_subseteq.
      + iPureIntro. intros X HX HbX. apply Hbk; [done|]. rewrite -insert_union_l.
        apply map_disjoint_insert_l in Hd' as [Hca _].
        apply blocks_ok_insert; [done|done| | |].
        * by rewrite mkreg_bytes Z2Nat.id; [|lia].
        * apply lookup_union_None. split; [done|]. by eapply lookup_weaken_None.
        * intros b s Hbs. rewrite mkreg_bytes Z2Nat.id; [|lia]. apply Hap. eapply lookup_weaken; [exact Hbs|].
          by apply map_union_mono_l.
      + iPureIntro. rewrite HA' segs_snoc layout_app layout_single -assoc_L /=. do 4 f_equal.
        rewrite (so_max _ _ _ _ _ _ _ Hok). pose proof (so_ne _ _ _ _ _ _ _ Hok).
        destruct sg as [|? sg0]; [done|]. simpl. rewrite Nat.sub_0_r //.
      + iPureIntro. right. destruct Hmx2 as [->|]; lia.
      + rewrite /zeros big_sepL_app. iFrame.
  Qed.

  Lemma wp_array_grow st kk A c own cl n Φ : own ##ₘ cl → 0 ≤ n < 2 ^ 64 →
    array_shell st kk A c own -∗ hctl (own ∪ cl) -∗
    (∀ st' A' own', ⌜own ⊆ own'⌝ -∗ ⌜own' ##ₘ cl⌝ -∗ ⌜∀ X, X ⊆ cl → blocks_ok (own ∪ X) → blocks_ok (own' ∪ X)⌝ -∗
      array_shell st' kk (A ++ A') (c `max` Z.to_nat n) own' -∗
      zeros true kk A' -∗ hctl (own' ∪ cl) -∗ Φ st') -∗
    wp (array_grow st n) Φ.
  Proof.
    iIntros (Hd Hn (sg & -> & Hok & -> & Hcnt & Hc1 & Hc2)) "Hc HΦ". rewrite /array_grow.
    destruct (decide (ar_count st >= n)) as [Hge|Hlt].
    - wp_ret. iApply ("HΦ" $! st [] own with "[//] [//] [] [] [] Hc"); [by iIntros| |by rewrite /zeros]. iPureIntro.
      exists sg. rewrite right_id_L. replace (c `max` Z.to_nat n)%nat with c by lia. done.
    - pose proof (seg_bit_range Hok).
      iApply (wp_array_grow_loop 64 _ sg with "Hc"); [done|exact Hok|lia|simpl; lia|].
      iIntros (st' sg' A' own' Hsub Hd'' Hbk Hok'' HA' Hcnt' Hmx Hmx2) "Hz Hc". simpl in *.
      iApply ("HΦ" with "[//] [//] [//] [] Hz Hc"). iPureIntro. exists sg'. rewrite HA'.
      replace (Z.of_nat (c `max` Z.to_nat n)) with n by lia. split_and!; try done. destruct Hmx2 as [->|]; lia.
  Qed.

  Lemma wp_array_ref st kk A c own i a Φ : (i < c)%nat → A !! i = Some a →
    array_shell st kk A c own -∗ (array_shell st kk A c own -∗ Φ a) -∗ wp (array_ref st (Z.of_nat i)) Φ.
  Proof.
    iIntros (Hi Ha Hsh) "HΦ". pose proof Hsh as (sg & -> & Hok & -> & Hcnt & Hc1 & Hc2).
    rewrite /array_ref. wp_assert; [apply bool_decide_eq_true; lia|].
    iApply (wp_seg_pos _ _ _ _ _ _ _ i a _ _ Hok Ha); [done|]. iApply "HΦ". done.
  Qed.

  Lemma wp_array_done_loop st sg own0 cl n : ∀ s own Φ,
    array_okst st sg own0 → (S s + n)%nat = length sg →
    own ##ₘ cl → own = blkmap true 1 (drop (S s) (segs sg)) →
    ([∗ list] i ↦ b ∈ drop (S s) sg, [∗ list] k ∈ region_cells b (mkreg true 1 (segsize (S s + i))), ∃ c, k ↦ c) -∗
    hctl (own ∪ cl) -∗ (hctl cl -∗ Φ tt) -∗
    wp (array_done_loop n st (6 + Z.of_nat s)) Φ.
  Proof.
    induction n as [|n IH]; intros s own Φ Hok Hs Hd Hown.
    - iIntros "_ Hc HΦ". wp_ret. iApply "HΦ". rewrite Hown drop_ge; [|by rewrite /segs imap_length; lia].
      by rewrite /blkmap left_id_L.
    - iIntros "Hcells Hc HΦ". cbn [array_done_loop]. wp_bind.
      destruct (lookup_lt_is_Some_2 sg (S s)) as [b Hb]; [lia|].
      pose proof (seg_bit_range Hok) as Hbr. pose proof (so_bit _ _ _ _ _ _ _ Hok) as Hbit.
      iApply wp_seg_get; [lia| |].
      { replace (Z.to_nat (6 + Z.of_nat s)) with (6 + s)%nat by lia. by apply (so_S _ _ _ _ _ _ _ Hok). }
      wp_bind. iApply wp_ptrdiff_shift; [lia|]. rewrite -/(pw s).
      destruct (seg_pos Hok _ _ Hb) as [Hb0 Hb1]. cbn [segsize] in Hb1. rewrite -/(pw s) in Hb1.
      pose proof (pw_ge s). change (stride true 1) with 8 in *.
      rewrite ptr_add_adj; [|lia]. replace (b + (8 * pw s - 8 * pw s)) with b by lia.
      rewrite (drop_S _ _ _ Hb) big_sepL_cons. iDestruct "Hcells" as "[Hcell Hcells]". rewrite Nat.add_0_r.
      assert (Hsb : segs sg !! S s = Some (b, segsize (S s))) by by rewrite /segs list_lookup_imap Hb.
      rewrite (drop_S _ _ _ Hsb) blkmap_cons /= in Hown.
      assert (Hnd : NoDup (drop (S s) sg)) by (pose proof (so_nd _ _ _ _ _ _ _ Hok) as Hq; rewrite -(take_drop (S s) sg) in Hq; by apply NoDup_app in Hq as (_ & _ & ?)).
      rewrite (drop_S _ _ _ Hb) in Hnd. apply NoDup_cons in Hnd as [Hnb Hnd].
      wp_bind. iApply (wp_free with "Hc [Hcell]"); [lia| | |].
      { apply lookup_union_Some_l. rewrite Hown. apply lookup_insert. } { done. }
      iIntros "Hc". replace (6 + Z.of_nat s + 1) with (6 + Z.of_nat (S s)) by lia.
      assert (Hnone : blkmap true 1 (drop (S (S s)) (segs sg)) !! b = None).
      { apply blkmap_None. by rewrite fmap_drop segs_fst. }
      rewrite Hown in Hd |- *. apply map_disjoint_insert_l in Hd as [Hd1 Hd2].
      iApply (IH (S s) _ with "[Hcells] [Hc] HΦ"); [done|lia|exact Hd2|done| |].
      + iApply (big_sepL_mono with "Hcells"). intros i k _. simpl. by rewrite Nat.add_succ_r.
      + rewrite delete_union delete_insert // delete_notin //.
  Qed.

  Lemma wp_array_done st kk A c own cl Φ : own ##ₘ cl →
    array_shell st kk A c own -∗ ([∗ list] a ∈ A, rawelem true kk a) -∗ hctl (own ∪ cl) -∗
    (hctl cl -∗ Φ tt) -∗ wp (array_done st) Φ.
  Proof.
    iIntros (Hd (sg & -> & Hok & -> & Hcnt & Hc1 & Hc2)) "Hraw Hc HΦ". rewrite /array_done. wp_bind.
    rewrite layout_raw.
    pose proof (so_ne _ _ _ _ _ _ _ Hok) as Hne. destruct sg as [|s0 sg]; [done|].
    iApply wp_seg_get; [done|by apply (so_0 _ _ _ _ _ _ _ Hok); [|lia]|].
    rewrite big_sepL_cons. iDestruct "Hraw" as "[H0 Hraw]".
    destruct (seg_pos Hok s0 0%nat eq_refl) as [Hs0 _]. pose proof (seg_block Hok s0 0%nat eq_refl) as Hb0.
    wp_bind. iApply (wp_free with "Hc H0"); [lia|by apply lookup_union_Some_l|]. iIntros "Hc".
    pose proof (so_own _ _ _ _ _ _ _ Hok) as Hown. pose proof (so_nd _ _ _ _ _ _ _ Hok) as Hnd.
    apply NoDup_cons in Hnd as [Hn0 Hnd].
    rewrite (so_bit _ _ _ _ _ _ _ Hok). replace (Z.to_nat (5 + Z.of_nat (length (s0 :: sg)) - ARRAY_BIT)) with (length sg) by (rewrite /ARRAY_BIT /=; lia).
    assert (Hown' : own = <[s0 := mkreg true 1 (segsize 0)]> (blkmap true 1 (drop 1 (segs (s0 :: sg))))) by done.
    assert (Hnone : blkmap true 1 (drop 1 (segs (s0 :: sg))) !! s0 = None).
    { apply blkmap_None. by rewrite fmap_drop segs_fst. }
    clear Hown. subst own. apply map_disjoint_insert_l in Hd as [Hd1 Hd2].
    change ARRAY_BIT with (6 + Z.of_nat 0).
    iApply (wp_array_done_loop st (s0 :: sg) _ cl (length sg) 0 _ with "[Hraw] [Hc] HΦ"); [done|done|exact Hd2|done|done|].
    rewrite delete_union delete_insert // delete_notin //.
  Qed.

  Lemma array_shell_facts st kk A c own : array_shell st kk A c own ⊢
    ⌜(c ≤ length A)%nat ∧ stride true kk * Z.of_nat (length A) < 2 ^ 64 ∧
     array_size st = Z.of_nat c ∧ array_memory_usage st = heap_bytes own ∧ array_inv st (Z.of_nat c) (Z.of_nat kk) ∧
     afacts (stride true kk) A own ∧ (true = true → kk = 1%nat)⌝.
  Proof.
    iIntros ((sg & -> & Hok & -> & Hcnt & Hc1 & Hc2)). iPureIntro.
    pose proof (seg_len Hok) as Hl. pose proof (seg_small Hok) as Hs.
    pose proof (seg_bytes Hok) as Hb. pose proof (seg_max_ge Hok). change (stride true 1) with 8 in Hs, Hb.
    assert (Hu : array_memory_usage st = 8 * ar_bucket_max st).
    { rewrite /array_memory_usage /wrap Z.mod_small; lia. }
    split; [lia|]. rewrite Hl. split; [done|]. split; [done|]. split; [lia|]. split; [done|].
    split; [exact (seg_facts Hok)|done].
  Qed.

  Definition array_ok : array_proof array_a array_inv.
  Proof.
    refine (ArrayProof array_a array_inv _ array_shell (λ k cl Φ _, wp_array_init cl Φ) _ wp_array_ref
      wp_array_done array_shell_facts _ (λ _ _ _ _, eq_refl) (λ _ _ _, eq_refl) (λ _ _ _, eq_refl)).
    - intros st kk A c own cl n Φ Hd Hn. simpl in Hn. iIntros "Hsh Hc HΦ".
      iApply (wp_array_grow with "Hsh Hc"); [done|lia|]. iIntros (st' A' own' ? ? _). by iApply "HΦ".
    - simpl. lia.
  Defined.
End array.
