(** * The operations common to the hashtables, on a vector of buckets. *)
From Verif Require Export TableHist.
Global Open Scope Z_scope.
Local Typeclasses Transparent nodeP freenode freenode_i lst.

(** Any word in the cell [a]. *)
Definition rawcell (a : Z) : iProp := ∃ c, ⌜wordcell c⌝ ∗ a ↦ c.

Lemma walk_chained m xs fuel : chained m xs → (length xs ≤ fuel)%nat → list_walk fuel (seq_head xs) m = Ok xs m.
Proof.
  revert fuel. induction xs as [|[p d] xs IH]; intros fuel Hc Hf; simpl in *; [by destruct fuel|].
  destruct Hc as (Hp & Hn & Hd & Hc). destruct fuel as [|fuel]; [lia|]. cbn [list_walk]. rewrite {1}/seq_head /=.
  destruct (decide (p = null)) as [->|_]; [by unfold null in Hp|].
  rewrite /mbind /M_bind /load Hd Hn IH //. lia.
Qed.

Lemma filter_en (P : ent → Prop) `{!∀ x, Decision (P x)} (l : list elem) :
  filter P (en <$> l) = en <$> filter (λ e, P (en e)) l.
Proof.
  induction l as [|e l IH]; [done|]. rewrite fmap_cons !filter_cons.
  destruct (decide (P (en e))); simpl; by rewrite IH.
Qed.
Lemma filter_Forall_iff {X} (l : list X) (P Q : X → Prop) `{!∀ x, Decision (P x), !∀ x, Decision (Q x)} :
  Forall (λ x, P x ↔ Q x) l → filter P l = filter Q l.
Proof.
  induction 1 as [|x l Hx Hl IH]; [done|]. rewrite !filter_cons IH.
  destruct (decide (P x)), (decide (Q x)); tauto.
Qed.

(** A bucket holds exactly the elements whose hashes select it. *)
Lemma good_exact n slot es B : good n slot es B → ∀ h, word h →
  B (Z.to_nat (slot h)) ≡ₚ filter (λ e, slot (e_h e) = slot h) es.
Proof.
  intros Hg h Hh. pose proof (good_slot _ _ _ _ Hg h Hh) as Hr. apply fh_perm. intros k.
  destruct (decide (word k)) as [Hk|Hk].
  2:{ rewrite !fh_not_word //; [|apply (good_hashed_B _ _ _ _ Hg); lia].
      apply Forall_forall. intros e [_ He]%elem_of_list_filter. by apply (proj1 (Forall_forall _ _) (good_hashed _ _ _ _ Hg)). }
  rewrite /fh list_filter_filter. destruct (decide (slot k = slot h)) as [Heq|Hne].
  - rewrite -Heq. change (fh k (B (Z.to_nat (slot k))) = filter (λ e, e_h e = k ∧ slot (e_h e) = slot k) es).
    rewrite (good_fh _ _ _ _ Hg k Hk). apply list_filter_iff. intros e. split; [by intros ->|by intros []].
  - trans (@nil elem).
    + apply fh_none. eapply Forall_impl; [apply (good_in _ _ _ _ Hg); lia|]. intros e He <-. simpl in *. lia.
    + symmetry. clear -Hne. induction es as [|e es IH]; [done|]. rewrite filter_cons_False //. by intros [<- ?].
Qed.

Section bucket_ops.
  Context `{!memG}.
  Variable A : nat → Z.
  Variable n : nat.
  Variable slot : Z → Z.

  Lemma wp_tab_insert es B a p d h {X} (k : M X) Φ :
    good n slot es B → word h → a = A (Z.to_nat (slot h)) →
    bks A n B -∗ freenode p -∗
    (∀ B', ⌜good n slot (es ++ [El p d (W h)]) B'⌝ -∗ bks A n B' -∗ wp k Φ) -∗
    wp (list_insert_tail a p d;; store (f_index p) h;; k) Φ.
  Proof.
    iIntros (Hg Hw ->) "HB Hp HΦ". pose proof (good_slot _ _ _ _ Hg h Hw).
    iDestruct (bks_acc with "HB") as "[Hl HB]"; [|iApply (wp_insert_index with "Hp Hl")]; [lia|].
    iIntros "Hl". iApply ("HΦ" with "[] (HB Hl)"). iPureIntro.
    apply (good_insert _ _ _ _ (El p d (W h)) Hg). by exists h.
  Qed.

  Lemma tab_index es1 e es2 B : good n slot (es1 ++ e :: es2) B →
    bks A n B ⊢ f_index (e_p e) ↦ W (e_h e) ∗ (f_index (e_p e) ↦ W (e_h e) -∗ bks A n B).
  Proof.
    iIntros (Hg) "HB". destruct (good_split _ _ _ _ _ _ Hg) as (He & Hi & b1 & b2 & Hb & _).
    iDestruct (bks_same with "HB") as "[[Hl Hd] HB]"; first done.
    iDestruct (dseg_index_acc _ _ _ e with "Hd") as "[Hx Hd]".
    { rewrite Hb. set_solver. }
    destruct (hashed_e _ He) as [-> _]. iFrame "Hx". iIntros "Hx". iApply "HB". iFrame "Hl". by iApply "Hd".
  Qed.

  Lemma wp_tab_unlink es1 e es2 B a Φ :
    good n slot (es1 ++ e :: es2) B → a = A (Z.to_nat (slot (e_h e))) →
    bks A n B -∗
    (∀ B' nx pv, ⌜good n slot (es1 ++ es2) B'⌝ -∗ bks A n B' -∗ nodeP e nx pv -∗ Φ (e_d e)) -∗
    wp (list_remove_existing a (e_p e)) Φ.
  Proof.
    iIntros (Hg ->) "HB HΦ". destruct (good_split _ _ _ _ _ _ Hg) as (He & Hi & b1 & b2 & Hb & H1 & H2).
    iDestruct (bks_acc with "HB") as "[Hl HB]"; first done. rewrite Hb.
    iApply (wp_list_remove_existing with "Hl"). iIntros (nx pv) "Hl Hn".
    iApply ("HΦ" with "[] (HB Hl) Hn"). iPureIntro. by eapply good_remove.
  Qed.

  Lemma wp_tab_search t fuel es B ff f arg h a Φ :
    good n slot es B → word h → a = A (Z.to_nat (slot h)) → (length es ≤ fuel)%nat → ereads ff f arg h es →
    bks A n B -∗ t ↦ Tape [] -∗
    ((∀ es1 e es2, ⌜es = es1 ++ e :: es2⌝ -∗ ⌜eacc f arg h e⌝ -∗
        ⌜Forall (λ e, ¬ eacc f arg h e) es1⌝ -∗ bks A n B -∗
        t ↦ Tape (ecalls arg h (es1 ++ [e])) -∗ Φ (e_d e)) ∧
     (⌜Forall (λ e, ¬ eacc f arg h e) es⌝ -∗ bks A n B -∗ t ↦ Tape (ecalls arg h es) -∗ Φ 0)) -∗
    wp (i ← load a; bucket_search fuel (tape_cmp t (λ _, ff)) arg h i) Φ.
  Proof.
    iIntros (Hg Hw -> Hf Hrd) "HB Ht HΦ". pose proof (good_slot _ _ _ _ Hg h Hw) as Hs.
    assert (Hi : (Z.to_nat (slot h) < n)%nat) by lia.
    iDestruct (bks_same with "HB") as "[[Hl Hd] HB]"; first done.
    wp_load. pose proof (good_length _ _ _ _ _ Hg Hi).
    iApply (wp_bucket_search with "Hd Ht"); [lia|by eapply good_hashed_B| |].
    { intros e He. apply Hrd. by eapply elem_of_submseteq, good_submseteq. }
    iIntros "Hd Ht".
    iDestruct ("HB" with "[$Hl $Hd]") as "HB".
    destruct (hit_spec f arg h _ _ (good_fh _ _ _ _ Hg h Hw)) as
      [(es1 & e & es2 & b1 & b2 & -> & Hb & -> & Hacc & Hno & Hsc & _)|(-> & Hno & Hsc)]; rewrite Hsc /=.
    - iDestruct "HΦ" as "[HΦ _]". by iApply ("HΦ" with "[] [] [] HB").
    - iDestruct "HΦ" as "[_ HΦ]". by iApply ("HΦ" with "[] HB").
  Qed.

  Lemma wp_tab_remove {R} t fuel es B ff f arg h a (k : Z → M R) (nf : M R) Φ :
    good n slot es B → word h → a = A (Z.to_nat (slot h)) → (length es ≤ fuel)%nat → ereads ff f arg h es →
    bks A n B -∗ t ↦ Tape [] -∗
    ((∀ B' es1 e es2 nx pv, ⌜es = es1 ++ e :: es2⌝ -∗ ⌜eacc f arg h e⌝ -∗
        ⌜Forall (λ e, ¬ eacc f arg h e) es1⌝ -∗ ⌜good n slot (es1 ++ es2) B'⌝ -∗ bks A n B' -∗
        nodeP e nx pv -∗ t ↦ Tape (ecalls arg h (es1 ++ [e])) -∗ wp (k (e_p e)) Φ) ∧
     (⌜Forall (λ e, ¬ eacc f arg h e) es⌝ -∗ bks A n B -∗ t ↦ Tape (ecalls arg h es) -∗ wp nf Φ)) -∗
    wp (node ← load a;
        bucket_remove fuel (tape_cmp t (λ _, ff)) arg h node
          (λ node, list_remove_existing a node;; k node) nf) Φ.
  Proof.
    iIntros (Hg Hw -> Hf Hrd) "HB Ht HΦ". pose proof (good_slot _ _ _ _ Hg h Hw) as Hs.
    assert (Hi : (Z.to_nat (slot h) < n)%nat) by lia.
    iDestruct (bks_acc with "HB") as "[[Hl Hd] HB]"; first done.
    wp_load. pose proof (good_length _ _ _ _ _ Hg Hi).
    iApply (wp_bucket_remove with "Hd Ht"); [lia|by eapply good_hashed_B| |].
    { intros e He. apply Hrd. by eapply elem_of_submseteq, good_submseteq. }
    iIntros "Hd Ht".
    destruct (hit_spec f arg h _ _ (good_fh _ _ _ _ Hg h Hw)) as
      [(es1 & e & es2 & b1 & b2 & -> & Hb & -> & Hacc & Hno & Hsc & H1 & H2)|(-> & Hno & Hsc)]; rewrite Hsc /=.
    - iDestruct "HΦ" as "[HΦ _]". wp_bind. rewrite Hb. iApply (wp_list_remove_existing with "[$Hl $Hd]").
      iIntros (nx pv) "Hl Hn". iApply ("HΦ" with "[//] [//] [//] [] (HB Hl) Hn Ht").
      iPureIntro. destruct Hacc as [<- _]. by eapply good_remove.
    - iDestruct "HΦ" as "[_ HΦ]". iApply ("HΦ" with "[//] [HB Hl Hd] Ht").
      iDestruct ("HB" with "[$Hl $Hd]") as "HB". iApply (bks_mono with "HB"); [done|].
      intros i _. destruct (decide (i = Z.to_nat (slot h))) as [->|]; [by rewrite upd_eq|by rewrite upd_ne].
  Qed.

  Lemma wp_tab_bucket es B h a Φ :
    good n slot es B → word h → a = A (Z.to_nat (slot h)) →
    bks A n B -∗
    (∀ b pv, ⌜b ⊆+ es⌝ -∗ ⌜fh h b = fh h es⌝ -∗ dseg b pv 0 -∗ (dseg b pv 0 -∗ bks A n B) -∗ Φ (hd_p b 0)) -∗
    wp (load a) Φ.
  Proof.
    iIntros (Hg Hw ->) "HB HΦ". pose proof (good_slot _ _ _ _ Hg h Hw) as Hs.
    assert (Hi : (Z.to_nat (slot h) < n)%nat) by lia.
    iDestruct (bks_same with "HB") as "[[Hl Hd] HB]"; first done.
    iApply (wp_load with "Hl"). iIntros "Hl". iApply ("HΦ" with "[] [] Hd").
    - iPureIntro. by eapply good_submseteq.
    - iPureIntro. by eapply good_fh.
    - iIntros "Hd". iApply "HB". iFrame.
  Qed.

  Lemma wp_tab_foreach_ro fuel es B ref func (I : list elem → iProp) Φ :
    good n slot es B → Z.of_nat n < 2 ^ 64 → (length es ≤ fuel)%nat →
    (∀ i Ψ, (i < n)%nat → Ψ (A i) ⊢ wp (ref (Z.of_nat i)) Ψ) →
    □ (∀ dn x, I dn -∗ wp (func (e_d x)) (λ _, I (dn ++ [x]))) -∗
    bks A n B -∗ I [] -∗ (∀ es', ⌜es' ≡ₚ es⌝ -∗ bks A n B -∗ I es' -∗ Φ tt) -∗
    wp (buckets_foreach fuel n 0 ref func) Φ.
  Proof.
    iIntros (Hg Hn Hf Href) "#Hfunc HB HI HΦ".
    iApply (wp_buckets_foreach_ro fuel n 0 A B with "Hfunc HB HI").
    - lia.
    - intros i Hi. etrans; [eapply (good_length _ _ _ _ _ Hg); lia|done].
    - intros i Ψ Hi. apply Href. lia.
    - iIntros "HB HI". iApply ("HΦ" with "[] HB HI"). iPureIntro. by eapply good_perm.
  Qed.

  Lemma wp_tab_foreach fuel es B ref func (I : list elem → iProp) Φ :
    good n slot es B → Z.of_nat n < 2 ^ 64 → (length es ≤ fuel)%nat →
    (∀ i Ψ, (i < n)%nat → Ψ (A i) ⊢ wp (ref (Z.of_nat i)) Ψ) →
    □ (∀ dn x more nx pv, ⌜dn ++ x :: more ≡ₚ es⌝ -∗ I dn -∗ nodeP x nx pv -∗ wp (func (e_d x)) (λ _, I (dn ++ [x]))) -∗
    bks A n B -∗ I [] -∗
    (∀ es', ⌜es' ≡ₚ es⌝ -∗ ([∗ list] i ∈ seq 0 n, rawcell (A i)) -∗ I es' -∗ Φ tt) -∗
    wp (buckets_foreach fuel n 0 ref func) Φ.
  Proof.
    iIntros (Hg Hn Hf Href) "#Hfunc HB HI HΦ".
    pose proof (good_perm _ _ _ _ Hg) as Hp.
    iApply (wp_buckets_foreach fuel n 0 A B with "[] HB HI").
    - lia.
    - intros i Hi. etrans; [eapply (good_length _ _ _ _ _ Hg); lia|done].
    - intros i Ψ Hi. apply Href. lia.
    - iIntros "!>" (dn x more nx pv Heq). iApply "Hfunc". iPureIntro. rewrite -Hp. simpl in Heq. by rewrite Heq.
    - iIntros "HB HI". iApply ("HΦ" with "[] HB HI"). done.
  Qed.

  Lemma lst_raw l xs : lst l xs ⊢ rawcell l ∗ [∗ list] e ∈ xs, ∃ nx pv, nodeP e nx pv.
  Proof.
    iIntros "[Hl Hd]". iSplitL "Hl".
    { iExists _. iFrame. iPureIntro. right. by eexists. }
    generalize (last_p 0 xs). intros pv. iInduction xs as [|x xs] "IH" forall (pv); simpl; [done|].
    iDestruct "Hd" as "[Hn Hd]". iSplitL "Hn"; [by iExists _, _|]. by iApply "IH".
  Qed.

  Lemma bks_nodes es B : good n slot es B →
    bks A n B ⊢ ([∗ list] e ∈ es, ∃ nx pv, nodeP e nx pv) ∗ [∗ list] i ∈ seq 0 n, rawcell (A i).
  Proof.
    iIntros (Hg) "HB". pose proof (good_perm _ _ _ _ Hg) as Hp. rewrite -Hp /concatB big_sepL_bind.
    rewrite -big_sepL_sep. iApply (big_sepL_impl with "HB"). iIntros "!>" (i k Hk) "Hl".
    rewrite lst_raw. by iDestruct "Hl" as "[$ $]".
  Qed.

  Lemma bks_visits (T : table) (st : tb_st T) es B int ref m :
    good n slot es B → Z.of_nat n < 2 ^ 64 →
    (∀ i m1, (i < n)%nat → ref (Z.of_nat i) m1 = Ok (A i) m1) →
    (∀ i, (i < n)%nat → A i ∈ blocks_cells int) →
    (∀ fuel func, tb_foreach T fuel st func = buckets_foreach fuel n 0 ref func) →
    bks A n B -∗ memI m -∗ ⌜visits T st (en <$> es) int m⌝.
  Proof.
    iIntros (Hg Hn Href Hown Heq) "HB Hm". iDestruct (lists_at 0 n with "HB Hm") as %Hat. iPureIntro.
    pose proof (good_perm _ _ _ _ Hg) as Hp. exists (en <$> concatB B (seq 0 n)).
    split; [by rewrite Hp|]. intros func fuel Hf Hsp. rewrite Heq en_d_fmap.
    rewrite fmap_length in Hf. rewrite -list_fmap_compose in Hsp.
    change ((λ e, (en_p e, en_d e)) ∘ en) with nd in Hsp.
    apply (buckets_foreach_any func (λ more m1, same_nodes more m m1 ∧ same_cells (blocks_cells int) m m1)
      (nd <$> concatB B (seq 0 n)) m A B ref fuel 0 n) with (s := 0%nat) (dn := []).
    - done.
    - intros i m1 Hi. apply Href. lia.
    - intros i Hi. apply Hat. lia.
    - intros i Hi. etrans; [eapply (good_length _ _ _ _ _ Hg); lia|done].
    - intros dn x more m1 m2 Hall [H1 H2] Hx. by eapply (Hsp dn x more m1 m2).
    - by intros more m1 [].
    - intros more m1 i [_ Hs] Hi. apply Hs, Hown. lia.
    - lia.
    - done.
    - done.
    - split; [by intros p d a|by intros a].
  Qed.

  Lemma bks_chains (T : table) (st : tb_st T) es B m :
    good n slot es B →
    (∀ h, word h → tb_slot T st h = slot h) →
    (∀ h v, word h → m !! A (Z.to_nat (slot h)) = Some (W v) → tb_bucket T st h m = Ok v m) →
    bks A n B -∗ memI m -∗ ⌜chains T st (en <$> es) m⌝.
  Proof.
    iIntros (Hg Hslot Hbk) "HB Hm". iDestruct (lists_at 0 n with "HB Hm") as %Hat. iPureIntro.
    intros h Hh. pose proof (good_slot _ _ _ _ Hg h Hh) as Hr. set (i := Z.to_nat (slot h)).
    destruct (Hat i ltac:(lia)) as [Hl Hc].
    exists (seq_head (nd <$> B i)), (en <$> B i). split; [by apply Hbk|]. split; [|split].
    - rewrite (filter_en (λ e, tb_slot T st (en_h e) = tb_slot T st h)).
      rewrite (good_exact _ _ _ _ Hg h Hh). apply fmap_Permutation.
      match goal with |- ?a ≡ₚ ?b => assert (Heq : a = b); [|by rewrite Heq] end. apply filter_Forall_iff.
      eapply Forall_impl; [exact (good_hashed _ _ _ _ Hg)|]. intros e [_ He]%hashed_e.
      rewrite /en /=. by rewrite !Hslot.
    - rewrite !(filter_en (λ e, en_h e = h)). f_equal. exact (good_fh _ _ _ _ Hg h Hh).
    - intros fuel. rewrite fmap_length. intros Hf. rewrite -list_fmap_compose.
      by apply (walk_chained m (nd <$> B i)); [|rewrite fmap_length].
  Qed.
End bucket_ops.

Section vec.
  Context `{!memG}.
  (** A vector of words at address [a]. *)
  Lemma rawcells_region a n :
    ([∗ list] i ∈ seq 0 n, rawcell (a + 8 * Z.of_nat i)) ⊢ [∗ list] k ∈ region_cells a (RWords n), ∃ c, k ↦ c.
  Proof.
    rewrite /region_cells big_sepL_fmap. apply big_sepL_mono. iIntros (i k _) "(%c & _ & H)". by iExists c.
  Qed.
  Lemma region_zero_bks a n :
    cells (region_cells a (RWords n)) (W 0) ⊢ bks (λ i, a + 8 * Z.of_nat i) n (λ _, []).
  Proof.
    rewrite /cells /region_cells /bks big_sepL_fmap. apply big_sepL_mono. iIntros (i k _) "H". by iFrame.
  Qed.
  Lemma region_raw a n c : wordcell c →
    cells (region_cells a (RWords n)) c ⊢ [∗ list] i ∈ seq 0 n, rawcell (a + 8 * Z.of_nat i).
  Proof.
    intros Hc. rewrite /cells /region_cells big_sepL_fmap. apply big_sepL_mono. iIntros (i k _) "H". iExists c. by iFrame.
  Qed.
End vec.
