(** * The fixed size hashtable *)
From Verif Require Export BucketOps BitsProof.
Global Open Scope Z_scope.
Local Typeclasses Transparent nodeP freenode freenode_i lst.

(** Facts on the struct: the vector has a power of two of buckets, 16 or more,
    and the count is right. *)
Definition hashtable_inv (st : hashtable) (n : nat) : Prop :=
  (∃ k, 4 <= k <= 60 ∧ ht_bucket_max st = 2 ^ k) ∧ ht_count st = Z.of_nat n.

Definition vec (a : Z) (i : nat) : Z := a + 8 * Z.of_nat i.
Lemma vec_cells a n i : (i < n)%nat → vec a i ∈ blocks_cells {[a := RWords n]}.
Proof.
  intros Hi. rewrite /blocks_cells map_to_list_singleton bind_singleton /=.
  apply elem_of_list_fmap. exists i. split; [done|]. apply elem_of_seq. lia.
Qed.
Definition pslot (k : Z) (h : Z) : Z := h mod 2 ^ k.

Lemma pslot_range k h : 0 ≤ k → 0 ≤ pslot k h < Z.of_nat (Z.to_nat (2 ^ k)).
Proof. intros Hk. rewrite /pslot. pose proof (Z.pow_pos_nonneg 2 k). rewrite Z2Nat.id; [|lia]. apply Z.mod_pos_bound. lia. Qed.

Lemma vec_pslot a k h : 0 ≤ k → a + 8 * Z.land h (2 ^ k - 1) = vec a (Z.to_nat (pslot k h)).
Proof.
  intros Hk. rewrite land_ones_mod // /vec. pose proof (pslot_range k h Hk). rewrite Z2Nat.id; [done|lia].
Qed.

Lemma pow2_small k : 0 ≤ k ≤ 60 → 1 ≤ 2 ^ k ≤ 2 ^ 60.
Proof. intros. split; [change 1 with (2 ^ 0)|]; apply Z.pow_le_mono_r; lia. Qed.

Lemma sub64_1 k : 0 ≤ k ≤ 60 → sub64 (2 ^ k) 1 = 2 ^ k - 1.
Proof. intros Hk. pose proof (pow2_small k Hk). rewrite /sub64 Z.mod_small; lia. Qed.

Section hashtable.
  Context `{!memG}.
  Variable t : Z.

  Definition ht_ok (st : hashtable) (k : Z) (es : list elem) : Prop :=
    4 ≤ k ≤ 60 ∧ ht_bucket_max st = 2 ^ k ∧ ht_bucket_mask st = 2 ^ k - 1 ∧
    ht_count st = Z.of_nat (length es) ∧ block_ok (ht_bucket st) (RWords (Z.to_nat (2 ^ k))).

  Definition ht_rep (st : hashtable) (es : list elem) (int : gmap Z region) : iProp :=
    ∃ k B, ⌜ht_ok st k es⌝ ∗ ⌜int = {[ht_bucket st := RWords (Z.to_nat (2 ^ k))]}⌝ ∗
      ⌜good (Z.to_nat (2 ^ k)) (pslot k) es B⌝ ∗ bks (vec (ht_bucket st)) (Z.to_nat (2 ^ k)) B.
  Definition ht_shell (st : hashtable) (int : gmap Z region) : iProp :=
    ∃ n, ⌜block_ok (ht_bucket st) (RWords n)⌝ ∗ ⌜int = {[ht_bucket st := RWords n]}⌝ ∗
      [∗ list] i ∈ seq 0 n, rawcell (vec (ht_bucket st) i).

  Lemma ht_shell_of st es int : ht_rep st es int ⊢ ([∗ list] e ∈ es, ∃ nx pv, nodeP e nx pv) ∗ ht_shell st int.
  Proof.
    iIntros "(%k & %B & %Hok & %Hint & %Hg & HB)". rewrite bks_nodes //. iDestruct "HB" as "[$ HB]".
    iExists _. iFrame. iPureIntro. destruct Hok as (?&?&?&?&?). done.
  Qed.

  Lemma ht_rep_inv st es int :
    ht_rep st es int ⊢ ⌜Forall hashed es ∧ ht_count st = Z.of_nat (length es) ∧ hashtable_inv st (length es)⌝.
  Proof.
    iIntros "(%k & %B & %Hok & %Hint & %Hg & HB)". iPureIntro. destruct Hok as (Hk&Hm&_&Hc&_).
    split; [by eapply good_hashed|]. split; [done|]. split; [by exists k|done].
  Qed.

  Lemma init_size n : 0 ≤ n ≤ 2 ^ 60 →
    ∃ k, 4 ≤ k ≤ 60 ∧ (if decide (n < 16) then 16 else roundup_pow2 n) = 2 ^ k ∧
      n ≤ 2 ^ k ∧ (∀ j, 0 ≤ j → n ≤ 2 ^ j → 16 ≤ 2 ^ j → 2 ^ k ≤ 2 ^ j).
  Proof.
    intros Hn. case_decide.
    - exists 4. split; [lia|]. split; [done|]. change (2 ^ 4) with 16. split; [lia|]. auto.
    - destruct (roundup_pow2_u64_ok n) as (k & Hk & He & Hle & Hmin); [lia|]. exists k.
      assert (k ≤ 60) by (apply Hmin; lia).
      assert (4 ≤ k).
      { destruct (decide (4 ≤ k)); [done|]. assert (2 ^ k ≤ 2 ^ 3) by (apply Z.pow_le_mono_r; lia). lia. }
      split; [lia|]. split; [done|]. split; [done|]. intros j Hj Hnj _. apply Z.pow_le_mono_r; [lia|auto].
  Qed.

  Lemma wp_hashtable_init n cl Φ : memG_env → 0 <= n <= 2 ^ 60 →
    hctl cl -∗
    (∀ st, ⌜∃ k, 0 ≤ k ∧ ht_bucket_max st = 2 ^ k ∧ n ≤ 2 ^ k ∧ 16 ≤ 2 ^ k ∧
             ∀ j, 0 ≤ j → n ≤ 2 ^ j → 16 ≤ 2 ^ j → 2 ^ k ≤ 2 ^ j⌝ -∗
       ⌜cl !! ht_bucket st = None⌝ -∗
       hctl ({[ht_bucket st := RWords (Z.to_nat (ht_bucket_max st))]} ∪ cl) -∗
       ht_rep st [] {[ht_bucket st := RWords (Z.to_nat (ht_bucket_max st))]} -∗ Φ st) -∗
    wp (hashtable_init n) Φ.
  Proof.
    iIntros (Henv Hn) "Hc HΦ". rewrite /hashtable_init.
    destruct (init_size n Hn) as (k & Hk & -> & Hle & Hmin). pose proof (pow2_small k ltac:(lia)) as Hp.
    assert (Hw : wrap (2 ^ k * 8) = 2 ^ k * 8) by (rewrite /wrap Z.mod_small; lia).
    rewrite Hw Z.div_mul //. wp_bind. rewrite /malloc Z.div_mul //.
    iApply (wp_alloc_region with "Hc"); [done|]. iIntros (a Ha Ham Hab Hal Hdis) "Hc Hcells".
    wp_bind. iApply (wp_memset0 with "Hcells"); [by left|]. iIntros "Hcells". wp_ret.
    iApply ("HΦ" $! (HashTable a (2 ^ k) (sub64 (2 ^ k) 1) 0) with "[] [] [Hc] [Hcells]").
    - iPureIntro. exists k. split; [lia|]. split; [done|]. split; [done|]. split; [|done].
      change 16 with (2 ^ 4). apply Z.pow_le_mono_r; lia.
    - done.
    - by rewrite -insert_union_singleton_l.
    - rewrite region_zero_bks. iExists k, (λ _, []). iFrame. iPureIntro.
      split; [|split]; [|done|].
      + rewrite /ht_ok /= sub64_1; [|lia]. split_and!; try done; try lia. by apply block_ok_16.
      + apply good_nil. intros h _. apply pslot_range. lia.
  Qed.

  Lemma wp_ht_init n cl Φ : memG_env → 0 <= n <= 2 ^ 60 →
    hctl cl -∗ (∀ st, tabR hashtable_table ht_rep st [] cl -∗ Φ st) -∗ wp (tb_init hashtable_table n) Φ.
  Proof.
    iIntros (Henv Hn) "Hc HΦ". iApply (wp_hashtable_init with "Hc"); [done|done|].
    iIntros (st _ Hcl) "Hc HR". iApply "HΦ". iExists _. iFrame. iPureIntro.
    by apply map_disjoint_singleton_l.
  Qed.

  Lemma wp_ht_done st int cl Φ : int ##ₘ cl →
    ht_shell st int -∗ hctl (int ∪ cl) -∗ (hctl cl -∗ Φ tt) -∗ wp (hashtable_done st) Φ.
  Proof.
    iIntros (Hd) "(%n & %Hpos & -> & HB) Hc HΦ".
    iApply (wp_free _ (RWords n) with "Hc [HB]").
    - destruct Hpos. lia.
    - by rewrite lookup_union_l' ?lookup_singleton.
    - by iApply rawcells_region.
    - apply map_disjoint_singleton_l in Hd. rewrite delete_union delete_singleton left_id_L delete_notin //.
  Qed.
  
  Lemma tabR_intro (T : table) (rep : tb_st T → list elem → gmap Z region → iProp) st es int cl :
    int ##ₘ cl → rep st es int -∗ hctl (int ∪ cl) -∗ tabR T rep st es cl.
  Proof. iIntros (Hd) "HR Hc". iExists int. by iFrame. Qed.

  Lemma wp_ht_insert fuel st es p d h cl Φ : fits fuel (S (length es)) → word h →
    tabR hashtable_table ht_rep st es cl -∗ freenode p -∗
    (∀ st', tabR hashtable_table ht_rep st' (es ++ [El p d (W h)]) cl -∗ Φ st') -∗
    wp (hashtable_insert st p d h) Φ.
  Proof.
    iIntros ([_ Hf] Hw) "(%int & %Hdis & (%k & %B & %Hok & %Hint & %Hg & HB) & Hc) Hp HΦ".
    destruct Hok as (Hk & Hmax & Hmask & Hcount & Hpos). rewrite /hashtable_insert.
    iApply (wp_tab_insert with "HB Hp"); [done|done| |].
    { rewrite /hashtable_ref Hmask. apply vec_pslot. lia. }
    iIntros (B' Hg') "HB". wp_ret. iApply "HΦ". iApply (tabR_intro with "[HB] Hc"); [done|].
    iExists k, B'. simpl. iFrame. iPureIntro. split; [|done].
    rewrite /ht_ok /= app_length /= Hcount /wrap Z.mod_small; [|lia]. split_and!; try done; lia.
  Qed.

  Lemma ht_dec st k es1 e es2 : ht_ok st k (es1 ++ e :: es2) → Z.of_nat (length (es1 ++ e :: es2)) < 2 ^ 59 →
    ht_ok (HashTable (ht_bucket st) (ht_bucket_max st) (ht_bucket_mask st) (sub64 (ht_count st) 1)) k (es1 ++ es2).
  Proof.
    intros (Hk & Hmax & Hmask & Hcount & Hpos) Hl. rewrite /ht_ok /= Hcount. rewrite !app_length /= in Hl |- *.
    rewrite /sub64 Z.mod_small; [|lia]. split_and!; try done; lia.
  Qed.

  Lemma wp_ht_remove fuel st es ff f arg h cl Φ : fits fuel (length es) → word h → ereads ff f arg h es →
    tabR hashtable_table ht_rep st es cl -∗ t ↦ Tape [] -∗
    ((∀ st' es1 e es2 nx pv, ⌜es = es1 ++ e :: es2⌝ -∗ ⌜eacc f arg h e⌝ -∗
        ⌜Forall (λ e, ¬ eacc f arg h e) es1⌝ -∗ tabR hashtable_table ht_rep st' (es1 ++ es2) cl -∗ nodeP e nx pv -∗
        t ↦ Tape (ecalls arg h (es1 ++ [e])) -∗ Φ (st', e_d e)) ∧
     (⌜Forall (λ e, ¬ eacc f arg h e) es⌝ -∗ tabR hashtable_table ht_rep st es cl -∗ t ↦ Tape (ecalls arg h es) -∗ Φ (st, 0))) -∗
    wp (hashtable_remove fuel st (tape_cmp t (λ _, ff)) arg h) Φ.
  Proof.
    iIntros ([Hf Hs] Hw Hrd) "(%int & %Hdis & (%k & %B & %Hok & %Hint & %Hg & HB) & Hc) Ht HΦ".
    rewrite /hashtable_remove.
    iApply (wp_tab_remove with "HB Ht"); [done|done| |done|done|].
    { destruct Hok as (Hk & Hmax & Hmask & _). rewrite /hashtable_ref Hmask. apply vec_pslot. lia. }
    iSplit.
    - iIntros (B' es1 e es2 nx pv -> Hacc Hno Hg') "HB (%Hp&Hn&Hv&Hd&Hi) Ht". wp_load. wp_ret.
      iDestruct "HΦ" as "[HΦ _]". iApply ("HΦ" with "[//] [//] [//] [HB Hc] [$Hn $Hv $Hd $Hi //] Ht").
      iApply (tabR_intro with "[HB] Hc"); [done|]. iExists k, B'. iFrame. iPureIntro. split; [|done].
      by eapply ht_dec.
    - iIntros (Hno) "HB Ht". wp_ret. iDestruct "HΦ" as "[_ HΦ]". iApply ("HΦ" with "[//] [HB Hc] Ht").
      iApply (tabR_intro with "[HB] Hc"); [done|]. iExists k, B. by iFrame.
  Qed.

  Lemma wp_ht_remove_existing fuel st es1 e es2 cl Φ : fits fuel (length (es1 ++ e :: es2)) →
    tabR hashtable_table ht_rep st (es1 ++ e :: es2) cl -∗
    (∀ st' nx pv, tabR hashtable_table ht_rep st' (es1 ++ es2) cl -∗ nodeP e nx pv -∗ Φ (st', e_d e)) -∗
    wp (hashtable_remove_existing st (e_p e)) Φ.
  Proof.
    iIntros ([_ Hs]) "(%int & %Hdis & (%k & %B & %Hok & %Hint & %Hg & HB) & Hc) HΦ".
    rewrite /hashtable_remove_existing. iDestruct (tab_index with "HB") as "[Hi HB]"; first done.
    wp_load. iDestruct ("HB" with "Hi") as "HB". wp_bind.
    iApply (wp_tab_unlink with "HB"); [done| |].
    { destruct Hok as (Hk & Hmax & Hmask & _). rewrite /hashtable_ref Hmask. apply vec_pslot. lia. }
    iIntros (B' nx pv Hg') "HB (%Hp&Hn&Hv&Hd&Hi)". wp_load. wp_ret.
    iApply ("HΦ" with "[HB Hc] [$Hn $Hv $Hd $Hi //]").
    iApply (tabR_intro with "[HB] Hc"); [done|]. iExists k, B'. iFrame. iPureIntro. split; [|done].
    by eapply ht_dec.
  Qed.

  Lemma wp_ht_search fuel st es ff f arg h int Φ : fits fuel (length es) → word h → ereads ff f arg h es →
    ht_rep st es int -∗ t ↦ Tape [] -∗
    ((∀ es1 e es2, ⌜es = es1 ++ e :: es2⌝ -∗ ⌜eacc f arg h e⌝ -∗
        ⌜Forall (λ e, ¬ eacc f arg h e) es1⌝ -∗ ht_rep st es int -∗
        t ↦ Tape (ecalls arg h (es1 ++ [e])) -∗ Φ (e_d e)) ∧
     (⌜Forall (λ e, ¬ eacc f arg h e) es⌝ -∗ ht_rep st es int -∗ t ↦ Tape (ecalls arg h es) -∗ Φ 0)) -∗
    wp (hashtable_search fuel st (tape_cmp t (λ _, ff)) arg h) Φ.
  Proof.
    iIntros ([Hf Hs] Hw Hrd) "(%k & %B & %Hok & %Hint & %Hg & HB) Ht HΦ".
    rewrite /hashtable_search /hashtable_bucket.
    iApply (wp_tab_search with "HB Ht"); [done|done| |done|done|].
    { destruct Hok as (Hk & Hmax & Hmask & _). rewrite /hashtable_ref Hmask. apply vec_pslot. lia. }
    iSplit.
    - iIntros (es1 e es2 -> Hacc Hno) "HB Ht".
      iDestruct "HΦ" as "[HΦ _]". iApply ("HΦ" with "[//] [//] [//] [HB] Ht"). iExists k, B. by iFrame.
    - iIntros (Hno) "HB Ht". iDestruct "HΦ" as "[_ HΦ]". iApply ("HΦ" with "[//] [HB] Ht"). iExists k, B. by iFrame.
  Qed.

  Lemma wp_ht_bucket st es h int Φ : word h →
    ht_rep st es int -∗
    (∀ b pv, ⌜b ⊆+ es⌝ -∗ ⌜fh h b = fh h es⌝ -∗ dseg b pv 0 -∗ (dseg b pv 0 -∗ ht_rep st es int) -∗ Φ (hd_p b 0)) -∗
    wp (hashtable_bucket st h) Φ.
  Proof.
    iIntros (Hw) "(%k & %B & %Hok & %Hint & %Hg & HB) HΦ". rewrite /hashtable_bucket.
    iApply (wp_tab_bucket with "HB"); [done|done| |].
    { destruct Hok as (Hk & Hmax & Hmask & _). rewrite /hashtable_ref Hmask. apply vec_pslot. lia. }
    iIntros (b pv Hb Hfh) "Hd HB". iApply ("HΦ" with "[//] [//] Hd"). iIntros "Hd". iExists k, B.
    iDestruct ("HB" with "Hd") as "HB". by iFrame.
  Qed.

  Lemma wp_ht_foreach_ro fuel st es int func (I : list elem → iProp) Φ : fits fuel (length es) →
    □ (∀ dn x, I dn -∗ wp (func (e_d x)) (λ _, I (dn ++ [x]))) -∗
    ht_rep st es int -∗ I [] -∗ (∀ es', ⌜es' ≡ₚ es⌝ -∗ ht_rep st es int -∗ I es' -∗ Φ tt) -∗
    wp (hashtable_foreach fuel st func) Φ.
  Proof.
    iIntros ([Hf Hs]) "#Hfunc (%k & %B & %Hok & %Hint & %Hg & HB) HI HΦ". rewrite /hashtable_foreach.
    pose proof Hok as (Hk & -> & _). pose proof (pow2_small k ltac:(lia)).
    iApply (wp_tab_foreach_ro _ _ _ fuel with "Hfunc HB HI"); [done|lia|done| |].
    { iIntros (i Ψ Hi) "H". wp_ret. done. }
    iIntros (es' Hp) "HB HI". iApply ("HΦ" with "[//] [HB] HI"). iExists k, B. by iFrame.
  Qed.

  Lemma wp_ht_foreach fuel st es int func (I : list elem → iProp) Φ : fits fuel (length es) →
    □ (∀ dn x more nx pv, ⌜dn ++ x :: more ≡ₚ es⌝ -∗ I dn -∗ nodeP x nx pv -∗ wp (func (e_d x)) (λ _, I (dn ++ [x]))) -∗
    ht_rep st es int -∗ I [] -∗ (∀ es', ⌜es' ≡ₚ es⌝ -∗ ht_shell st int -∗ I es' -∗ Φ tt) -∗
    wp (hashtable_foreach fuel st func) Φ.
  Proof.
    iIntros ([Hf Hs]) "#Hfunc (%k & %B & %Hok & %Hint & %Hg & HB) HI HΦ". rewrite /hashtable_foreach.
    pose proof Hok as (Hk & -> & _ & _ & ?). pose proof (pow2_small k ltac:(lia)).
    iApply (wp_tab_foreach _ _ _ fuel with "Hfunc HB HI"); [done|lia|done| |].
    { iIntros (i Ψ Hi) "H". wp_ret. done. }
    iIntros (es' Hp) "HB HI". iApply ("HΦ" with "[//] [HB] HI"). iExists _. by iFrame.
  Qed.

  Lemma ht_visits st es int m : ht_rep st es int -∗ memI m -∗ ⌜visits hashtable_table st (en <$> es) int m⌝.
  Proof.
    iIntros "(%k & %B & %Hok & -> & %Hg & HB) Hm". pose proof Hok as (Hk & Hmax & _).
    pose proof (pow2_small k ltac:(lia)).
    iApply (bks_visits _ _ _ hashtable_table st es B _ (λ pos, (mret (hashtable_ref st pos) : M Z)) with "HB Hm"); [exact Hg|lia|done| |].
    - intros i Hi. by apply vec_cells.
    - intros fuel func. by rewrite /= /hashtable_foreach Hmax.
  Qed.

  Lemma ht_chains st es int m : ht_rep st es int -∗ memI m -∗ ⌜chains hashtable_table st (en <$> es) m⌝.
  Proof.
    iIntros "(%k & %B & %Hok & -> & %Hg & HB) Hm". pose proof Hok as (Hk & Hmax & Hmask & _).
    iApply (bks_chains _ _ _ hashtable_table st es B with "HB Hm"); [exact Hg| |].
    - intros h _. by rewrite /= Hmax.
    - intros h v _ Hv. rewrite /= /hashtable_bucket /hashtable_ref Hmask vec_pslot; [|lia]. by rewrite /load Hv.
  Qed.

  Lemma ht_blocks st int : ht_shell st int ⊢ blocks_own int.
  Proof.
    iIntros "(%n & %Hb & -> & HB)". rewrite /blocks_own big_sepM_singleton. iSplit; [done|]. by iApply rawcells_region.
  Qed.

  Lemma ht_memory st es int : ht_rep st es int ⊢
    ⌜hashtable_memory_usage st = wrap (heap_bytes int + 32 * Z.of_nat (length es))⌝.
  Proof.
    iIntros "(%k & %B & %Hok & -> & %Hg & HB)". iPureIntro. destruct Hok as (Hk & Hmax & _ & Hc & _).
    pose proof (pow2_small k ltac:(lia)).
    rewrite heap_bytes_singleton /hashtable_memory_usage Hmax /hashtable_count Hc /wrap -Zplus_mod.
    f_equal. simpl. lia.
  Qed.

  Definition ht_proof : memG_env → table_proof hashtable_table hashtable_inv t.
  Proof.
    intros Henv. refine (TableProof hashtable_table hashtable_inv _ t ht_rep ht_shell ht_shell_of ht_rep_inv _ wp_ht_done
      wp_ht_insert wp_ht_remove wp_ht_remove_existing wp_ht_search wp_ht_bucket wp_ht_foreach_ro wp_ht_foreach _
      ht_visits ht_chains ht_blocks ht_memory).
    - intros. by apply wp_ht_init.
    - done.
  Defined.
End hashtable.

Lemma hashtable_history om K t live m fuel c :
  table_start om K t live m → (size om ≤ fuel)%nat →
  allowed (tpre om K) tpost (tstate0 om live) c →
  safe (run (tstep hashtable_table fuel t) None c m) (λ r m',
    table_end hashtable_table hashtable_inv om live r.1 r.2 m' ∧ unchanged_outside (HCTL :: t :: objs_cells om) m m').
Proof. apply table_history. intros. by apply ht_proof. Qed.

(** The size chosen by init. *)
Lemma hashtable_init_size n live m : 0 <= n <= 2 ^ 60 → heap_live m live →
  safe (hashtable_init n m) (λ st m',
    (∃ k, 0 <= k ∧ ht_bucket_max st = 2 ^ k ∧ n <= 2 ^ k ∧ 16 <= 2 ^ k ∧
       ∀ j, 0 <= j → n <= 2 ^ j → 16 <= 2 ^ j → 2 ^ k <= 2 ^ j) ∧
    live !! ht_bucket st = None ∧
    heap_live m' (<[ht_bucket st := RWords (Z.to_nat (ht_bucket_max st))]> live)).
Proof.
  intros Hn (h & Hh & <-).
  refine (wp_adequacy_gen True _ m _ _). intros HG HE. iIntros "Hm".
  iDestruct (big_sepM_lookup _ _ HCTL with "Hm") as "Hc"; [done|].
  iApply (wp_hashtable_init n (hc_live h) with "[Hc]"); [by rewrite HE|done| |].
  { iExists (hc_oracle h), (hc_next h). by destruct h. }
  iIntros (st Hk Hnone) "(%o & %nx & Hc) _". iIntros (m') "Hm".
  iDestruct (memI_lookup with "Hm Hc") as %Hl. iPureIntro. split; [done|]. split; [done|].
  eexists. split; [done|]. by rewrite /= insert_union_singleton_l.
Qed.
