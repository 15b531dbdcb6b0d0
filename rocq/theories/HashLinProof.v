(** * The linear hashtable *)
From Verif Require Export HashLinBase.
Global Open Scope Z_scope.
Local Typeclasses Transparent nodeP freenode freenode_i lst.

(** Facts on the struct in every state, [n] being the number of elements.  The
    number of valid buckets is low_max + split. *)
Definition hashlin_inv (st : hashlin) (n : nat) : Prop :=
  let bm := hl_bucket_max st in
  let low := hl_low_max st in
  let split := hl_split st in
  let c := Z.of_nat n in
  hl_count st = c ∧
  (∃ k, 6 <= k <= 60 ∧ bm = 2 ^ k ∧ hl_bucket_bit st = k) ∧
  hl_bucket_mask st = bm - 1 ∧ 64 <= low ∧
  ((hl_state st = STATE_STABLE ∧ split = 0 ∧ low = bm ∧
      2 * c <= bm + 2 ∧ (bm = 64 ∨ bm <= 8 * c)) ∨
   (hl_state st = STATE_GROW ∧ 1 <= split < low ∧ bm = 2 * low ∧
      2 * c <= low + split ∧ bm <= 8 * c) ∨
   (hl_state st = STATE_SHRINK ∧ 1 <= split < low ∧ bm = 2 * low ∧
      c <= low ∧ low + split <= 8 * c)).

Section loops.
  Context `{!memG}.

  Lemma wp_assoc {A B C} (c : M A) (d : A → M B) (k : B → M C) Φ :
    wp (c ≫= λ a, d a ≫= k) Φ -∗ wp ((c ≫= d) ≫= k) Φ.
  Proof.
    rewrite wp_unseal. iIntros "H" (m) "Hm". iSpecialize ("H" with "Hm").
    rewrite /mbind /M_bind. destruct (c m) as [v m'| | |]; done.
  Qed.

  Lemma wp_hashlin_flush xs fuel a0 a1 low L0 L1 pv Φ :
    (length xs ≤ fuel)%nat → (∃ l, 0 ≤ l ∧ low = 2 ^ l) → Forall hashed xs →
    ∀ s, 0 ≤ s < low → Forall (λ x, e_h x mod low = s) xs →
    dseg xs pv 0 -∗ lst a0 L0 -∗ lst a1 L1 -∗
    (lst a0 (L0 ++ part (λ h, h mod (2 * low)) s xs) -∗
     lst a1 (L1 ++ part (λ h, h mod (2 * low)) (low + s) xs) -∗ Φ tt) -∗
    wp (hashlin_flush fuel a0 a1 low (hd_p xs 0)) Φ.
  Proof.
    intros Hf (l & Hl & ->) HF s Hs. revert fuel L0 L1 pv Hf HF.
    induction xs as [|x xs IH]; intros fuel L0 L1 pv Hf HF Hin; iIntros "Hd H0 H1 HΦ".
    { destruct fuel; cbn [hd_p hashlin_flush]; (iApply wp_if_true; [done|]); wp_ret; rewrite !app_nil_r; by iApply ("HΦ" with "H0 H1"). }
    destruct fuel as [|fuel]; simpl in Hf; [lia|]. apply Forall_cons in HF as [Hh HF].
    apply Forall_cons in Hin as [Hx Hin].
    cbn [hd_p hashlin_flush]. rewrite dseg_cons. iDestruct "Hd" as "[(%Hp&Hn&Hv&Hda&Hi) Hd]".
    iApply wp_if_false; [rewrite /null; lia|].
    destruct (hashed_e _ Hh) as [He Hw]. rewrite He. wp_load. wp_load.
    iAssert (nodeP x (hd_p xs 0) pv) with "[Hn Hv Hda Hi]" as "Hn".
    { rewrite /nodeP He. by iFrame. }
    assert (Hbit : (Z.land (e_h x) (2 ^ l) ≠ 0 → e_h x mod (2 * 2 ^ l) = 2 ^ l + s) ∧
                   (Z.land (e_h x) (2 ^ l) = 0 → e_h x mod (2 * 2 ^ l) = s)).
    { replace (2 * 2 ^ l) with (2 ^ (l + 1)) by (rewrite Z.pow_add_r; lia).
      assert (Hd : e_h x mod 2 ^ (l + 1) = s + 2 ^ l * Z.b2z (Z.testbit (e_h x) l)).
      { rewrite Z.pow_add_r; [|lia..]. rewrite Z.rem_mul_r; [|lia..]. rewrite Hx. do 2 f_equal.
        rewrite Z.testbit_spec' //. }
      assert (Hland : Z.land (e_h x) (2 ^ l) = 2 ^ l * Z.b2z (Z.testbit (e_h x) l)).
      { apply Z.bits_inj'. intros i Hi. rewrite Z.land_spec Z.pow2_bits_eqb //.
        rewrite Z.mul_comm -Z.shiftl_mul_pow2 // Z.shiftl_spec //.
        destruct (Z.eqb_spec l i) as [->|Hne].
        - rewrite Z.sub_diag andb_true_r. by destruct (Z.testbit (e_h x) i).
        - rewrite andb_false_r. destruct (Z.testbit (e_h x) l); cbn [Z.b2z].
          + destruct (decide (i < l)); [by rewrite Z.testbit_neg_r; [|lia]|].
            rewrite Z.bits_above_log2 //; simpl; lia.
          + by rewrite Z.bits_0. }
      rewrite Hd Hland. pose proof (Z.pow_pos_nonneg 2 l). destruct (Z.testbit (e_h x) l); cbn [Z.b2z]; lia. }
    destruct Hbit as [Hb1 Hb0].
    destruct (decide (Z.land (e_h x) (2 ^ l) ≠ 0)) as [Hb|Hb].
    - specialize (Hb1 Hb). iApply (wp_append with "Hn H1"). iIntros "H1". iApply (IH with "Hd H0 H1"); [lia|done|done|].
      rewrite /part !filter_cons Hb1. rewrite decide_False; [|lia]. rewrite decide_True // -app_assoc. done.
    - specialize (Hb0 ltac:(by destruct (decide (Z.land (e_h x) (2 ^ l) = 0)))). iApply (wp_append with "Hn H0"). iIntros "H0". iApply (IH with "Hd H0 H1"); [lia|done|done|].
      rewrite /part !filter_cons Hb0. rewrite decide_True //. rewrite decide_False; [|lia]. rewrite -app_assoc. done.
  Qed.
End loops.

(** ** Representation *)

(** The two shapes of the table: [split = 0] with [low = pw j], or the upper
    half being filled or emptied. *)
Definition hl_shape (j : nat) (low split : Z) : Prop :=
  (low = pw j ∧ split = 0) ∨ (∃ i, j = S i ∧ low = pw i ∧ 0 ≤ split ≤ low).

Definition hl_fields (t : hashlin) (j : nat) (low split : Z) : Prop :=
  hl_bucket_bit t = 6 + Z.of_nat j ∧ hl_bucket_max t = pw j ∧ hl_bucket_mask t = pw j - 1 ∧
  hl_low_max t = low ∧ hl_low_mask t = low - 1 ∧ hl_split t = split.

Definition hl_load (t : hashlin) (j : nat) (low split c : Z) : Prop :=
  hl_count t = c ∧
  ((hl_state t = STATE_STABLE ∧ split = 0 ∧ low = pw j ∧ 2 * c ≤ pw j + 2 ∧ (j = 0%nat ∨ pw j ≤ 8 * c)) ∨
   (hl_state t = STATE_GROW ∧ 1 ≤ split < low ∧ pw j = 2 * low ∧ 2 * c ≤ low + split ∧ pw j ≤ 8 * c) ∨
   (hl_state t = STATE_SHRINK ∧ 1 ≤ split < low ∧ pw j = 2 * low ∧ c ≤ low ∧ low + split ≤ 8 * c)).

Lemma hl_shape_range j low split : hl_shape j low split → 64 ≤ low ∧ 0 ≤ split ∧ low + split ≤ pw j.
Proof.
  intros [[-> ->]|(i & -> & -> & Hs)].
  - pose proof (pw_ge j). lia.
  - rewrite pw_S. pose proof (pw_ge i). lia.
Qed.
Lemma hl_shape_slot j low split h : hl_shape j low split → 0 ≤ hslot low (pw j) split h < low + split.
Proof.
  intros [[-> ->]|(i & -> & -> & Hs)].
  - pose proof (pw_ge j). rewrite hslot_0; [|lia]. pose proof (Z.mod_pos_bound h (pw j)). lia.
  - pose proof (pw_ge i). rewrite pw_S. apply hslot_range; lia.
Qed.

Section hashlin.
  Context `{!memG}.
  Variable t : Z.

  Definition hl_cells (sg : nat → Z) (j : nat) (low split : Z) (es : list elem) : iProp :=
    ∃ B, ⌜good (Z.to_nat (low + split)) (hslot low (pw j) split) es B⌝ ∗
      bks (haddr sg) (Z.to_nat (low + split)) B ∗
      [∗ list] i ∈ seq (Z.to_nat (low + split)) (Z.to_nat (pw j - (low + split))), rawcell (haddr sg i).

  Definition hl_tab (st : hashlin) (j : nat) (low split : Z) (es : list elem) (int : gmap Z region) : iProp :=
    ∃ sg, ⌜hl_phys st j sg⌝ ∗ ⌜int = segmap sg 0 (S j)⌝ ∗ hl_cells sg j low split es.
  Definition hl_rep (st : hashlin) (es : list elem) (int : gmap Z region) : iProp :=
    ∃ j low split, ⌜hl_shape j low split⌝ ∗ ⌜hl_fields st j low split⌝ ∗
      ⌜hl_load st j low split (Z.of_nat (length es))⌝ ∗ hl_tab st j low split es int.
  Definition hl_shell (st : hashlin) (int : gmap Z region) : iProp :=
    ∃ j sg, ⌜hl_phys st j sg⌝ ∗ ⌜hl_bucket_bit st = (6 + Z.of_nat j)%Z⌝ ∗ ⌜int = segmap sg 0 (S j)⌝ ∗
      [∗ list] i ∈ seq 0 (Z.to_nat (pw j)), rawcell (haddr sg i).

  Lemma raws_join sg j n : 0 ≤ n ≤ pw j →
    ([∗ list] i ∈ seq 0 (Z.to_nat n), rawcell (haddr sg i)) -∗
    ([∗ list] i ∈ seq (Z.to_nat n) (Z.to_nat (pw j - n)), rawcell (haddr sg i)) -∗
    [∗ list] i ∈ seq 0 (Z.to_nat (pw j)), rawcell (haddr sg i).
  Proof.
    iIntros (Hn) "H1 Hdbl". replace (Z.to_nat (pw j)) with (Z.to_nat n + Z.to_nat (pw j - n))%nat by lia.
    rewrite seq_app big_sepL_app. iFrame.
  Qed.

  Lemma hl_shell_of st es int : hl_rep st es int ⊢ ([∗ list] e ∈ es, ∃ nx pv, nodeP e nx pv) ∗ hl_shell st int.
  Proof.
    iIntros "(%j & %low & %split & %Hsh & %Hf & %Hl & (%sg & %Hph & %Hint & (%B & %Hg & HB & Hraw)))".
    rewrite bks_nodes //. iDestruct "HB" as "[$ HB]". iExists j, sg. destruct Hf as (Hb & _).
    iSplit; [done|]. iSplit; [done|]. iSplit; [done|]. pose proof (hl_shape_range _ _ _ Hsh).
    iApply (raws_join with "HB Hraw"). lia.
  Qed.

  Lemma hl_rep_inv st es int :
    hl_rep st es int ⊢ ⌜Forall hashed es ∧ hl_count st = Z.of_nat (length es) ∧ hashlin_inv st (length es)⌝.
  Proof.
    iIntros "(%j & %low & %split & %Hsh & %Hf & %Hl & (%sg & %Hph & %Hint & (%B & %Hg & HB & Hraw)))".
    iPureIntro. split; [by eapply good_hashed|]. pose proof Hf as (Hb & Hm & _ & Hlm & _ & Hsp).
    destruct Hl as [Hc Hcase]. split; [done|]. rewrite /hashlin_inv Hm Hlm Hsp.
    pose proof (hp_j _ _ _ Hph). pose proof Hf as (_ & _ & Hmask & _).
    split; [done|]. split; [exists (6 + Z.of_nat j); split; [lia|done]|]. split; [done|].
    pose proof (hl_shape_range _ _ _ Hsh). split; [lia|].
    destruct Hcase as [(Hs & -> & -> & Hc1 & Hc2)|[(Hs & Hs1 & Hbm & Hc1 & Hc2)|(Hs & Hs1 & Hbm & Hc1 & Hc2)]].
    - left. split_and!; try done. destruct Hc2 as [->|]; [by left|right; lia].
    - right; left. split_and!; done || lia.
    - right; right. split_and!; done || lia.
  Qed.

  Lemma wp_hl_init cl Φ : memG_env →
    hctl cl -∗ (∀ st, tabR hashlin_table hl_rep st [] cl -∗ Φ st) -∗ wp hashlin_init Φ.
  Proof.
    iIntros (Henv) "Hc HΦ". rewrite /hashlin_init. change (shl64 1 HASHLIN_BIT) with 64.
    wp_bind. rewrite /calloc_words. iApply wp_if_true; [done|].
    iApply (wp_alloc_region with "Hc"); [done|]. iIntros (a Ha Ham Hab Hal Hdis) "Hc Hcells". wp_ret.
    iApply "HΦ". iExists {[a := RWords 64]}. iSplit; [iPureIntro; by apply map_disjoint_singleton_l|].
    rewrite -insert_union_singleton_l. iFrame "Hc". iExists 0%nat, 64, 0. iSplit; [by iLeft|].
    iSplit; [done|]. iSplit.
    { iPureIntro. split; [done|]. left. split_and!; try done; by left. }
    iExists (λ _, a). iSplit.
    { iPureIntro. split; simpl; try done; try lia.
      - intros i Hi. do 6 (destruct i as [|i]; [done|]). lia.
      - intros i Hi. assert (i = 0%nat) as -> by lia. simpl in Hab. simpl. lia. }
    iSplit; [done|]. iExists (λ _, []). change (Z.to_nat 64) with 64%nat. rewrite region_zero_bks. iSplit; [|iSplitL].
    - iPureIntro. apply good_nil. intros h _. by apply (hl_shape_slot 0 64 0); left.
    - iApply (bks_mono with "Hcells"); [|done]. intros i Hi. rewrite haddr_low //.
    - done.
  Qed.

  Lemma wp_hl_done_loop st sg j n s cl Φ :
    hl_phys st j sg → (s + n)%nat = j → segmap sg (S s) n ##ₘ cl →
    ([∗ list] i ∈ seq (S s) n, [∗ list] q ∈ seq 0 (segsize i), rawcell (sg i + 8 * Z.of_nat q)) -∗
    hctl (segmap sg (S s) n ∪ cl) -∗ (hctl cl -∗ Φ tt) -∗
    wp (hashlin_done_loop n st (6 + Z.of_nat s)) Φ.
  Proof.
    iIntros (Hph). iInduction n as [|n] "IH" forall (s); iIntros (Hs Hd) "Hcells Hc HΦ".
    { wp_ret. iApply "HΦ". by rewrite /segmap /= left_id_L. }
    cbn [hashlin_done_loop]. wp_bind. pose proof (hp_j _ _ _ Hph).
    iApply wp_hl_get; [lia| |].
    { replace (Z.to_nat (6 + Z.of_nat s)) with (6 + s)%nat by lia. apply (hp_S _ _ _ Hph). lia. }
    destruct (hp_pos _ _ _ Hph (S s) ltac:(lia)) as [Hq0 Hq1]. cbn [segsize] in Hq1. rewrite -/(pw s) in Hq1.
    rewrite shl64_pow; [|lia]. rewrite -/(pw s). pose proof (pw_ge s).
    rewrite seg_ref_adj; [|lia]. rewrite Z.sub_diag Z.mul_0_r Z.add_0_r.
    cbn [seq]. rewrite big_sepL_cons. iDestruct "Hcells" as "[Hcell Hcells]".
    assert (Hlk : segmap sg (S s) (S n) !! sg (S s) = Some (RWords (segsize (S s)))).
    { apply segmap_lookup; [lia|]. intros a b ??. apply (hp_inj _ _ _ Hph); lia. }
    wp_bind. iApply (wp_free with "Hc [Hcell]"); [lia| | |].
    { by apply lookup_union_Some_l. } { by iApply rawcells_region. }
    iIntros "Hc". replace (6 + Z.of_nat s + 1) with (6 + Z.of_nat (S s)) by lia.
    assert (Hnone : segmap sg (S (S s)) n !! sg (S s) = None).
    { apply segmap_None. intros i Hi He. apply (hp_inj _ _ _ Hph) in He; lia. }
    rewrite segmap_cons in Hd. apply map_disjoint_insert_l in Hd as [Hd1 Hd2].
    iApply ("IH" with "[] [] Hcells [Hc] HΦ"); [iPureIntro; lia|done|].
    rewrite delete_union segmap_cons delete_insert // delete_notin //.
  Qed.

  Lemma wp_hl_done st int cl Φ : int ##ₘ cl →
    hl_shell st int -∗ hctl (int ∪ cl) -∗ (hctl cl -∗ Φ tt) -∗ wp (hashlin_done st) Φ.
  Proof.
    iIntros (Hd) "(%j & %sg & %Hph & %Hbit & -> & HB) Hc HΦ". rewrite /hashlin_done. wp_bind.
    iApply wp_hl_get; [done|by apply (hp_0 _ _ _ Hph 0%nat); lia|].
    rewrite seg_cells. cbn [seq]. rewrite big_sepL_cons. iDestruct "HB" as "[H0 HB]".
    destruct (hp_pos _ _ _ Hph 0%nat ltac:(lia)) as [Hq0 Hq1].
    assert (Hlk : segmap sg 0 (S j) !! sg 0%nat = Some (RWords (segsize 0))).
    { apply segmap_lookup; [lia|]. intros a b ??. apply (hp_inj _ _ _ Hph); lia. }
    wp_bind. iApply (wp_free with "Hc [H0]"); [lia|by apply lookup_union_Some_l|by iApply rawcells_region|].
    iIntros "Hc". rewrite Hbit. replace (Z.to_nat (6 + Z.of_nat j - HASHLIN_BIT)) with j by (rewrite /HASHLIN_BIT; lia).
    assert (Hnone : segmap sg 1 j !! sg 0%nat = None).
    { apply segmap_None. intros i Hi He. apply (hp_inj _ _ _ Hph) in He; lia. }
    rewrite segmap_cons in Hd |- *. apply map_disjoint_insert_l in Hd as [Hd1 Hd2].
    iApply (wp_hl_done_loop st sg j j 0 with "HB [Hc] HΦ"); [done|lia|done|].
    rewrite delete_union delete_insert // delete_notin //.
  Qed.

  Lemma wp_hl_ref st j low split sg h Φ :
    hl_shape j low split → hl_fields st j low split → hl_phys st j sg →
    Φ (haddr sg (Z.to_nat (hslot low (pw j) split h))) ⊢ wp (hashlin_bucket_ref st h) Φ.
  Proof.
    iIntros (Hsh (Hb & Hm & Hmask & Hlm & Hlmask & Hsp) Hph) "HΦ". rewrite /hashlin_bucket_ref.
    rewrite Hmask Hlmask Hsp.
    assert (Hl : Z.land h (low - 1) = h mod low).
    { destruct Hsh as [[-> _]|(i & _ & -> & _)]; apply land_ones_mod; lia. }
    rewrite Hl {1}/pw land_ones_mod; [|lia]. rewrite -/(pw j) -/(hslot low (pw j) split h).
    pose proof (hl_shape_slot _ _ _ h Hsh). pose proof (hl_shape_range _ _ _ Hsh).
    iApply (wp_hashlin_pos with "HΦ"); [done|lia|lia].
  Qed.

  (** *** Divide one bucket *)
  Lemma hl_pos_wrap j split : (j ≤ 54)%nat → 0 ≤ split ≤ pw j → wrap (split + pw j) = pw j + split.
  Proof. intros Hj Hs. pose proof (pw_le j Hj). rewrite /wrap Z.mod_small; lia. Qed.

  Lemma wp_hl_divide fuel st i sg split es {R} (k : M R) Φ :
    hl_phys st (S i) sg → hl_fields st (S i) (pw i) split → 0 ≤ split < pw i → (length es ≤ fuel)%nat →
    hl_cells sg (S i) (pw i) split es -∗
    (hl_cells sg (S i) (pw i) (split + 1) es -∗ wp k Φ) -∗
    wp (split0 ← hashlin_pos st split;
        split1 ← hashlin_pos st (pw i + split);
        j ← load split0;
        store split0 null;;
        store split1 null;;
        hashlin_flush fuel split0 split1 (pw i) j;; k) Φ.
  Proof.
    iIntros (Hph Hf Hs Hfuel) "(%B & %Hg & HB & Hraw) HΦ". pose proof (pw_ge i).
    assert (Hdbl : pw (S i) = 2 * pw i) by apply pw_S. rewrite Hdbl in Hg |- *.
    wp_bind. iApply (wp_hashlin_pos st (S i) sg (Z.to_nat split)); [done|lia|lia|].
    wp_bind. iApply (wp_hashlin_pos st (S i) sg (Z.to_nat (pw i + split))); [done|lia|lia|].
    iDestruct (bks_acc _ _ _ (Z.to_nat split) with "HB") as "[[Hl Hd] HB]"; [lia|].
    assert (Hgf : (length (B (Z.to_nat split)) ≤ fuel)%nat).
    { etrans; [eapply (good_length _ _ _ _ _ Hg); lia|done]. }
    replace (Z.to_nat (2 * pw i - (pw i + split))) with (S (Z.to_nat (2 * pw i - (pw i + (split + 1))))) by lia.
    cbn [seq]. rewrite big_sepL_cons. iDestruct "Hraw" as "[(%c & %Hc & H1) Hraw]".
    assert (Hpl : ∃ l, 0 ≤ l ∧ pw i = 2 ^ l) by (exists (6 + Z.of_nat i); split; [lia|done]).
    assert (HhB : Forall hashed (B (Z.to_nat split))) by (apply (good_hashed_B _ _ _ _ Hg); lia).
    assert (HinB : Forall (λ x, e_h x mod pw i = split) (B (Z.to_nat split))).
    { pose proof (good_in _ _ _ _ Hg (Z.to_nat split) ltac:(lia)) as HF. eapply Forall_impl; [exact HF|].
      intros e He. simpl in He. rewrite /hslot in He. pose proof (Z.mod_pos_bound (e_h e) (pw i)).
      case_decide; [|lia]. destruct (mod_double (pw i) (e_h e)); lia. }
    wp_load. wp_store. wp_store. wp_bind.
    iApply (wp_hashlin_flush _ _ _ _ _ [] [] _ _ Hgf Hpl HhB split Hs HinB with "Hd [Hl] [H1]").
    - rewrite /lst /=. by iFrame.
    - rewrite /lst /=. by iFrame.
    - iIntros "H0 H1". iApply "HΦ". pose proof (good_divide (pw i) split es B ltac:(lia) Hs Hg) as Hg'.
      iExists _. rewrite Hdbl. rewrite Z.add_assoc.
      replace (Z.to_nat (pw i + split + 1)) with (S (Z.to_nat (pw i + split))) by lia.
      iSplit; [iPureIntro; exact Hg'|]. rewrite -Z.add_assoc. iFrame "Hraw".
      rewrite /bks seq_S big_sepL_app big_sepL_singleton /=. rewrite upd_eq. iFrame "H1".
      iDestruct ("HB" with "H0") as "HB". iApply (big_sepL_impl with "HB"). iIntros "!>" (a b [-> Hb]%lookup_seq) "H".
      rewrite (upd_ne _ (Z.to_nat (pw i + split))) //. lia.
  Qed.

  (** *** Join two buckets *)
  Lemma wp_hl_join st i sg split es {R} (k : M R) Φ :
    hl_phys st (S i) sg → 0 ≤ split < pw i →
    hl_cells sg (S i) (pw i) (split + 1) es -∗
    (hl_cells sg (S i) (pw i) split es -∗ wp k Φ) -∗
    wp (split0 ← hashlin_pos st split;
        split1 ← hashlin_pos st (pw i + split);
        list_concat split0 split1;; k) Φ.
  Proof.
    iIntros (Hph Hs) "(%B & %Hg & HB & Hraw) HΦ". pose proof (pw_ge i).
    assert (Hdbl : pw (S i) = 2 * pw i) by apply pw_S. rewrite Hdbl in Hg |- *.
    wp_bind. iApply (wp_hashlin_pos st (S i) sg (Z.to_nat split)); [done|lia|lia|].
    wp_bind. iApply (wp_hashlin_pos st (S i) sg (Z.to_nat (pw i + split))); [done|lia|lia|].
    rewrite !Z.add_assoc in Hg |- *.
    replace (Z.to_nat (pw i + split + 1)) with (S (Z.to_nat (pw i + split))) in Hg |- * by lia.
    rewrite {1}/bks seq_S big_sepL_app big_sepL_singleton /=. iDestruct "HB" as "[HB H1]".
    iDestruct (bks_acc _ _ _ (Z.to_nat split) with "HB") as "[H0 HB]"; [lia|].
    wp_bind. iApply (wp_list_concat with "H0 H1"). iIntros "H0 H1". iApply "HΦ".
    pose proof (good_join (pw i) split es B ltac:(lia) Hs Hg) as Hg'.
    iExists _. rewrite Hdbl. iSplit; [iPureIntro; exact Hg'|]. iDestruct ("HB" with "H0") as "HB". iFrame "HB".
    replace (Z.to_nat (2 * pw i - (pw i + split))) with (S (Z.to_nat (2 * pw i - (pw i + split + 1)))) by lia.
    cbn [seq]. rewrite big_sepL_cons. iFrame "Hraw". iExists _. iFrame. iPureIntro. right. by eexists.
  Qed.

  (** Changes of the shape without touching the cells *)
  Lemma hl_cells_slot sg j low split low' split' es :
    low + split = low' + split' → (∀ h, hslot low (pw j) split h = hslot low' (pw j) split' h) →
    hl_cells sg j low split es ⊢ hl_cells sg j low' split' es.
  Proof.
    iIntros (Hn Hs) "(%B & %Hg & HB & Hraw)". iExists B. rewrite -Hn. iFrame. iPureIntro.
    by eapply good_slot_ext.
  Qed.

  Lemma hl_set_split_fields st j low split s' : hl_fields st j low split → hl_fields (hl_set_split st s') j low s'.
  Proof. intros (?&?&?&?&?&?). done. Qed.

  (** *** The loop of growing *)
  Lemma wp_hl_grow_loop fuel lfuel st i sg split es tgt int cl Φ :
    hl_phys st (S i) sg → hl_fields st (S i) (pw i) split → hl_state st = STATE_GROW →
    0 ≤ split < pw i → (Z.to_nat (pw i - split) ≤ lfuel)%nat → (length es ≤ fuel)%nat →
    int = segmap sg 0 (S (S i)) → int ##ₘ cl →
    hl_cells sg (S i) (pw i) split es -∗ hctl (int ∪ cl) -∗
    (∀ st', ⌜hl_count st' = hl_count st⌝ -∗
       ⌜(hl_state st' = STATE_GROW ∧ ∃ split', split ≤ split' < pw i ∧ tgt ≤ pw i + split' ∧ hl_fields st' (S i) (pw i) split') ∨
        (hl_state st' = STATE_STABLE ∧ hl_fields st' (S i) (pw (S i)) 0)⌝ -∗
       hl_tab st' (S i) (hl_low_max st') (hl_split st') es int -∗ hctl (int ∪ cl) -∗ Φ st') -∗
    wp (hashlin_grow_loop fuel lfuel st tgt) Φ.
  Proof.
    iIntros (Hph Hf Hst Hs Hlf Hfuel Hint Hdis) "HC Hc HΦ".
    pose proof (hp_j _ _ _ Hph) as Hj. pose proof (pw_ge i) as Hp64. pose proof (pw_le (S i) Hj) as Hple.
    assert (Hdbl : pw (S i) = 2 * pw i) by apply pw_S.
    iInduction lfuel as [|lfuel] "IH" forall (st split Hph Hf Hst Hs Hlf).
    { lia. }
    pose proof Hf as (Hb & Hm & Hmask & Hlm & Hlmask & Hsp).
    cbn [hashlin_grow_loop]. rewrite Hlm Hsp hl_pos_wrap; [|lia|lia].
    destruct (decide (pw i + split < tgt)) as [Hlt|Hge]; last first.
    { wp_ret. iApply ("HΦ" with "[//] [] [HC] Hc").
      - iPureIntro. left. split; [done|]. exists split. split; [lia|]. split; [lia|done].
      - rewrite Hlm Hsp. iExists sg. by iFrame. }
    iApply (wp_hl_divide with "HC"); [done|done|done|done|]. iIntros "HC".
    assert (Hw1 : wrap (split + 1) = split + 1) by (rewrite /wrap Z.mod_small; lia). rewrite Hw1.
    destruct (decide (split + 1 = pw i)) as [Hend|Hne].
    - iApply wp_if_true; [by rewrite /= Hlm|]. wp_ret.
      iApply ("HΦ" with "[] [] [HC] Hc").
      + done.
      + iPureIntro. right. split; [done|]. rewrite /hl_fields /= Hm Hmask Hb. done.
      + cbn [hashlin_stable hl_set_split hl_set_low hl_set_state hl_low_max hl_split]. rewrite Hm.
        iExists sg. iSplit; [iPureIntro; eapply hl_phys_fields; [|exact Hph]; done|]. iSplit; [done|].
        iApply (hl_cells_slot with "HC"); [lia|]. intros h. rewrite Hend hslot_full; [|lia]. rewrite hslot_0; [done|lia].
    - iApply wp_if_false; [by rewrite /= Hlm|].
      iApply ("IH" $! (hl_set_split st (split + 1)) (split + 1) with "[] [] [] [] [] HC Hc [HΦ]").
      + iPureIntro. eapply hl_phys_fields; [|exact Hph]; done.
      + iPureIntro. by eapply hl_set_split_fields.
      + done.
      + iPureIntro. lia.
      + iPureIntro. lia.
      + iIntros (st' Hc' Hcase). iApply "HΦ"; [done|]. iPureIntro.
        destruct Hcase as [(?&s'&?&?&?)|?]; [left|by right]. split; [done|]. exists s'. split; [lia|done].
  Qed.

  (** *** The loop of shrinking *)
  Lemma wp_hl_shrink_loop lfuel st i sg split es tgt int cl Φ :
    hl_phys st (S i) sg → hl_fields st (S i) (pw i) split → hl_state st = STATE_SHRINK →
    1 ≤ split ≤ pw i → (Z.to_nat split ≤ lfuel)%nat →
    int = segmap sg 0 (S (S i)) → int ##ₘ cl →
    hl_cells sg (S i) (pw i) split es -∗ hctl (int ∪ cl) -∗
    (∀ st' j' int', ⌜hl_count st' = hl_count st⌝ -∗ ⌜int' ##ₘ cl⌝ -∗
       ⌜(hl_state st' = STATE_SHRINK ∧ j' = S i ∧ ∃ split', 1 ≤ split' ≤ split ∧ pw i + split' ≤ tgt ∧ hl_fields st' (S i) (pw i) split') ∨
        (hl_state st' = STATE_STABLE ∧ j' = i ∧ tgt < pw i + split ∧ hl_fields st' i (pw i) 0)⌝ -∗
       hl_tab st' j' (hl_low_max st') (hl_split st') es int' -∗ hctl (int' ∪ cl) -∗ Φ st') -∗
    wp (hashlin_shrink_loop lfuel st tgt) Φ.
  Proof.
    iIntros (Hph Hf Hst Hs Hlf Hint Hdis) "HC Hc HΦ".
    pose proof (hp_j _ _ _ Hph) as Hj. pose proof (pw_ge i) as Hp64. pose proof (pw_le (S i) Hj) as Hple.
    assert (Hdbl : pw (S i) = 2 * pw i) by apply pw_S.
    iInduction lfuel as [|lfuel] "IH" forall (st split Hph Hf Hst Hs Hlf).
    { lia. }
    pose proof Hf as (Hb & Hm & Hmask & Hlm & Hlmask & Hsp).
    cbn [hashlin_shrink_loop]. rewrite Hlm Hsp hl_pos_wrap; [|lia|lia].
    destruct (decide (tgt < pw i + split)) as [Hlt|Hge]; last first.
    { wp_ret. iApply ("HΦ" $! st (S i) int with "[//] [//] [] [HC] Hc").
      - iPureIntro. left. split; [done|]. split; [done|]. exists split. split; [lia|]. split; [lia|done].
      - rewrite Hlm Hsp. iExists sg. by iFrame. }
    assert (Hw1 : sub64 split 1 = split - 1) by (rewrite /sub64 Z.mod_small; lia). rewrite Hw1.
    cbn [hl_set_split hl_split hl_low_max]. rewrite Hlm hl_pos_wrap; [|lia|lia].
    assert (Hph1 : hl_phys (hl_set_split st (split - 1)) (S i) sg) by (eapply hl_phys_fields; [|exact Hph]; done).
    assert (Hf1 : hl_fields (hl_set_split st (split - 1)) (S i) (pw i) (split - 1)) by by eapply hl_set_split_fields.
    rewrite -{1}(Z.sub_add 1 split).
    iApply (wp_hl_join with "HC"); [exact Hph1|lia|]. iIntros "HC".
    destruct (decide (split - 1 = 0)) as [Hend|Hne].
    - wp_bind. rewrite /hl_set_bit. cbn [hl_bucket_bit]. rewrite Hb.
      iApply wp_if_true; [lia|]. wp_ret. cbn [hl_bucket_bit].
      replace (6 + Z.of_nat (S i) - 1) with (6 + Z.of_nat i) by lia.
      wp_bind. iApply wp_hl_get; [lia| |].
      { cbn [hl_bucket]. replace (Z.to_nat (6 + Z.of_nat i)) with (6 + i)%nat by lia. apply (hp_S _ _ _ Hph). lia. }
      rewrite shl64_pow; [|lia]. rewrite -/(pw i).
      destruct (hp_pos _ _ _ Hph (S i) ltac:(lia)) as [Hq0 Hq1]. cbn [segsize] in Hq1. rewrite -/(pw i) in Hq1.
      rewrite seg_ref_adj; [|lia]. rewrite Z.sub_diag Z.mul_0_r Z.add_0_r.
      assert (Hnone : segmap sg 0 (S i) !! sg (S i) = None).
      { apply segmap_None. intros a Ha He. apply (hp_inj _ _ _ Hph) in He; lia. }
      rewrite Hend. iDestruct "HC" as (B Hg) "[HB Hraw]".
      wp_bind. iApply (wp_free _ (RWords (Z.to_nat (pw i))) with "Hc [Hraw]"); [lia| | |].
      { rewrite Hint (segmap_snoc sg 0 (S i)) //. apply lookup_union_Some_l. by rewrite lookup_insert. }
      { iApply rawcells_region. rewrite Z.add_0_r. replace (Z.to_nat (pw (S i) - pw i)) with (Z.to_nat (pw i)) by lia.
        rewrite big_sepL_seq_shift. iApply (big_sepL_impl with "Hraw"). iIntros "!>" (a b [-> Hb']%lookup_seq) "H".
        rewrite haddr_seg //. }
      iIntros "Hc". wp_ret.
      assert (Hd' : segmap sg 0 (S i) ##ₘ cl).
      { rewrite Hint (segmap_snoc sg 0 (S i)) // in Hdis. by apply map_disjoint_insert_l in Hdis as [_ ?]. }
      assert (Hcl : cl !! sg (S i) = None).
      { rewrite Hint (segmap_snoc sg 0 (S i)) // in Hdis. by apply map_disjoint_insert_l in Hdis as [? _]. }
      iApply ("HΦ" $! _ i (segmap sg 0 (S i)) with "[] [//] [] [HB] [Hc]").
      + done.
      + iPureIntro. right. split; [done|]. split; [done|]. split; [done|].
        rewrite /hl_fields /=. rewrite /pw sub64_1; [|lia]. done.
      + cbn [hashlin_stable hl_set_split hl_set_low hl_set_state hl_low_max hl_split hl_bucket_max].
        iExists sg. iSplit.
        { iPureIntro. destruct Hph as [P1 P2 P3 P4 P5 P6 P7]. split; simpl; [done|lia|done| | | |].
          - intros a Ha. apply P4. lia.
          - intros a Ha. apply P5. lia.
          - intros a b Ha Hb'. apply P6; lia.
          - intros a Ha. apply P7. lia. }
        iSplit; [done|]. iExists B. rewrite !Z.add_0_r. iFrame "HB".
        rewrite Z.sub_diag. iSplit; [|done]. iPureIntro. rewrite Z.add_0_r in Hg.
        eapply good_slot_ext; [|exact Hg]. intros h. rewrite !hslot_0 //; lia.
      + rewrite Hint (segmap_snoc sg 0 (S i)) // delete_union delete_insert // delete_notin //.
    - iApply ("IH" $! (hl_set_split st (split - 1)) (split - 1) with "[] [] [] [] [] HC Hc [HΦ]").
      + done.
      + done.
      + done.
      + iPureIntro. lia.
      + iPureIntro. lia.
      + iIntros (st' j' int' Hc' Hd' Hcase). iApply "HΦ"; [done|done|]. iPureIntro.
        destruct Hcase as [(?&?&s'&?&?&?)|(?&?&?&?)]; [left|right].
        * split; [done|]. split; [done|]. exists s'. split; [lia|done].
        * split; [done|]. split; [done|]. split; [lia|done].
  Qed.

  Lemma hl_tab_fields st st' j low split es int : hl_bucket st' = hl_bucket st →
    hl_tab st j low split es int ⊢ hl_tab st' j low split es int.
  Proof. iIntros (Hb) "(%sg & %Hph & H)". iExists sg. iFrame. iPureIntro. by eapply hl_phys_fields. Qed.

  Lemma hl_fields_eq st j low split j' low' split' :
    hl_fields st j low split → hl_fields st j' low' split' → j = j' ∧ low = low' ∧ split = split'.
  Proof. intros (?&?&?&?&?&?) (?&?&?&?&?&?). split; [lia|]. split; congruence. Qed.

  Lemma hl_upper j low split : hl_shape j low split → pw j = 2 * low → ∃ i, j = S i ∧ low = pw i ∧ 0 ≤ split ≤ low.
  Proof. intros [[-> ->]|Hx]; [|done]. pose proof (pw_ge j). lia. Qed.

  (** *** hashlin_grow_step *)
  Lemma wp_hl_grow_run fuel st i sg split es int cl c Φ :
    hl_phys st (S i) sg → hl_fields st (S i) (pw i) split → hl_state st = STATE_GROW →
    0 ≤ split < pw i → (length es ≤ fuel)%nat → int = segmap sg 0 (S (S i)) → int ##ₘ cl →
    hl_count st = c → c = Z.of_nat (length es) → c < 2 ^ 59 →
    (split = 0 → pw i < 2 * c) → 2 * c ≤ pw (S i) + 2 → pw (S i) ≤ 8 * c →
    hl_cells sg (S i) (pw i) split es -∗ hctl (int ∪ cl) -∗
    (∀ st', tabR hashlin_table hl_rep st' es cl -∗ Φ st') -∗
    wp (hashlin_grow_loop fuel (Z.to_nat (hl_low_max st)) st (wrap (2 * hl_count st))) Φ.
  Proof.
    iIntros (Hph Hf Hst Hs Hfuel Hint Hdis Hc Hlen Hsz H0 H1 H8) "HC Hc HΦ".
    pose proof Hf as (Hb & Hm & Hmask & Hlm & Hlmask & Hsp). pose proof (pw_ge i). pose proof (pw_S i) as Hdbl.
    rewrite Hlm Hc. replace (wrap (2 * c)) with (2 * c) by (rewrite /wrap Z.mod_small; lia).
    iApply (wp_hl_grow_loop with "HC Hc"); [done|done|done|done|lia|done|done|done|].
    iIntros (st' Hc' Hcase) "HT Hc". iApply "HΦ". iApply (tabR_intro with "[HT] Hc"); [done|].
    destruct Hcase as [(Hst' & split' & Hs' & Htgt & Hf')|(Hst' & Hf')].
    - pose proof Hf' as (_ & _ & _ & Hlm' & _ & Hsp'). rewrite Hlm' Hsp'.
      iExists (S i), (pw i), split'. iFrame "HT". iPureIntro. split; [right; exists i; split; [done|]; split; [done|lia]|].
      split; [done|]. split; [congruence|]. right; left. rewrite -Hlen. split_and!; try done; lia.
    - pose proof Hf' as (_ & _ & _ & Hlm' & _ & Hsp'). rewrite Hlm' Hsp'.
      iExists (S i), (pw (S i)), 0. iFrame "HT". iPureIntro. split; [by left|]. split; [done|].
      split; [congruence|]. left. rewrite -Hlen. split_and!; try done. by right.
  Qed.

  Definition sg_ext (sg : nat → Z) (j : nat) (a : Z) (i : nat) : Z := if decide (i = S j) then a else sg i.

  Lemma hl_cells_ext sg j a es :
    hl_cells sg j (pw j) 0 es -∗ ([∗ list] i ∈ seq 0 (Z.to_nat (pw j)), rawcell (a + 8 * Z.of_nat i)) -∗
    hl_cells (sg_ext sg j a) (S j) (pw j) 0 es.
  Proof.
    iIntros "(%B & %Hg & HB & _) Hraw". iExists B. pose proof (pw_ge j). pose proof (pw_S j) as Hdbl.
    iSplit.
    { iPureIntro. eapply good_slot_ext; [|exact Hg]. intros h. rewrite !hslot_0 //; lia. }
    rewrite Z.add_0_r. iSplitL "HB".
    - iApply (bks_mono with "HB"); [|done]. intros i Hi. apply (haddr_ext _ _ _ j); [lia|].
      intros k Hk. rewrite /sg_ext decide_False //. lia.
    - replace (Z.to_nat (pw (S j) - pw j)) with (Z.to_nat (pw j)) by lia.
      rewrite (big_sepL_seq_shift _ (Z.to_nat (pw j))). iApply (big_sepL_impl with "Hraw").
      iIntros "!>" (i k [-> Hk]%lookup_seq) "H". rewrite haddr_seg // /sg_ext decide_True //.
  Qed.

  Lemma wp_hl_grow_step fuel st j low split es int cl c Φ :
    memG_env → hl_shape j low split → hl_fields st j low split → int ##ₘ cl → (length es ≤ fuel)%nat →
    c = Z.of_nat (length es) → 0 < c < 2 ^ 59 →
    hl_load (hl_set_count st (c - 1)) j low split (c - 1) → hl_count st = c →
    hl_tab st j low split es int -∗ hctl (int ∪ cl) -∗
    (∀ st', tabR hashlin_table hl_rep st' es cl -∗ Φ st') -∗
    wp (hashlin_grow_step fuel st) Φ.
  Proof.
    iIntros (Henv Hsh Hf Hdis Hfuel Hlen Hsz [_ Hl] Hc) "(%sg & %Hph & %Hint & HC) Hc HΦ".
    pose proof Hf as (Hb & Hm & Hmask & Hlm & Hlmask & Hsp).
    pose proof (hp_j _ _ _ Hph) as Hj. pose proof (pw_ge j) as Hp64. pose proof (pw_le j Hj) as Hple.
    cbn [hl_set_count hl_state] in Hl.
    rewrite /hashlin_grow_step Hm.
    pose proof (pw_8 j) as Hp8. pose proof (Z.div_mod (pw j) 8 ltac:(lia)) as Hdm.
    assert (Hhalf : 2 * (pw j / 2) = pw j).
    { pose proof (Z.div_mod (pw j) 2 ltac:(lia)). pose proof (Z.mod_pos_bound (pw j) 2 ltac:(lia)). lia. }
    destruct Hl as [(Hst & -> & -> & Hl1 & Hl2)|[(Hst & Hs & Hbm & Hl1 & Hl2)|(Hst & Hs & Hbm & Hl1 & Hl2)]].
    - (* STABLE *)
      wp_bind. destruct (decide (pw j / 2 < c)) as [Hgrow|Hno].
      + iApply wp_if_true; [by rewrite Hst Hc|]. wp_bind. iApply wp_if_true; [done|].
        wp_bind. cbn [hl_set_low hl_low_max]. rewrite Hmask Hb.
        replace (wrap (pw j * 8)) with (pw j * 8) by (rewrite /wrap Z.mod_small; lia).
        assert (Hj53 : (S j ≤ 54)%nat).
        { destruct (decide (j = 54%nat)) as [->|]; [|lia]. change (pw 54) with (2 ^ 60) in *. lia. }
        pose proof (pw_S j) as Hdbl. pose proof (pw_le (S j) Hj53) as Hple'.
        rewrite /malloc Z.div_mul //.
        iApply (wp_alloc_region with "Hc"); [done|]. iIntros (a Ha Ham Hab Hlv _) "Hc Hcells".
        rewrite region_raw; [|by left]. iDestruct (hl_cells_ext with "HC Hcells") as "HC".
        apply lookup_union_None in Hlv as [Hlv Hlv2].
        assert (Hnew : ∀ i, (i ≤ j)%nat → sg i ≠ a).
        { intros i Hi. rewrite Hint in Hlv. apply (proj2 (segmap_None sg 0 (S j) a)); [done|lia]. }
        wp_bind. rewrite /hl_set. cbn [hl_bucket_bit]. iApply wp_if_true; [lia|]. wp_ret.
        wp_bind. rewrite /hl_set_bit. cbn [hl_bucket_bit]. rewrite Hb. iApply wp_if_true; [lia|]. wp_ret. wp_ret. wp_ret.
        cbn [hl_set_split hl_set_state hl_state hl_bucket hl_bucket_max hl_bucket_mask hl_low_max hl_low_mask hl_split hl_count hl_bucket_bit].
        rewrite shl64_pow; [|lia]. rewrite sub64_1; [|lia].
        replace (6 + Z.of_nat j + 1) with (6 + Z.of_nat (S j)) by lia. rewrite -/(pw (S j)).
        iApply wp_if_true; [done|].
        assert (Hmap : segmap (sg_ext sg j a) 0 (S (S j)) = <[a := RWords (Z.to_nat (pw j))]> int).
        { rewrite (segmap_snoc _ 0 (S j)).
          - rewrite Nat.add_0_l. f_equal.
            + rewrite /sg_ext decide_True //.
            + rewrite Hint. apply segmap_ext. intros i Hi. rewrite /sg_ext decide_False //. lia.
          - apply segmap_None. intros i Hi. rewrite Nat.add_0_l /sg_ext decide_False; [|lia].
            rewrite decide_True //. apply Hnew. lia. }
        iApply (wp_hl_grow_run _ _ j (sg_ext sg j a) 0 _ (<[a:=RWords (Z.to_nat (pw j))]> int) _ c with "HC [Hc] HΦ"); try done.
        * destruct Hph as [P1 P2 P3 P4 P5 P6 P7].
          assert (Hw : seg_ref a (- pw j) = wrap (a - 8 * pw j)) by (rewrite /seg_ref; f_equal; lia).
          split; cbn [hl_bucket].
          -- by rewrite insert_length.
          -- done.
          -- intros i Hi. rewrite list_lookup_insert_ne; [|lia]. rewrite P3 //.
          -- intros i Hi. destruct (decide (i = j)) as [->|].
             ++ replace (Z.to_nat (6 + Z.of_nat j)) with (6 + j)%nat by lia. rewrite list_lookup_insert; [|rewrite P1; clear -P2; lia].
                rewrite Hw /sg_ext decide_True //.
             ++ rewrite list_lookup_insert_ne; [|lia]. rewrite P4; [|lia]. rewrite /sg_ext decide_False //. lia.
          -- intros i Hi. rewrite /sg_ext. case_decide as Hd; [|apply P5; lia]. subst i.
             split; [done|]. cbn [segsize]. rewrite -/(pw j). cbn [region_bytes] in Hab. lia.
          -- intros x y Hx Hy. rewrite /sg_ext. case_decide; case_decide; intros Heq; subst; try done.
             ++ by destruct (Hnew y ltac:(lia)).
             ++ by destruct (Hnew x ltac:(lia)).
             ++ apply P6; [lia|lia|done].
          -- intros i Hi. rewrite /sg_ext. case_decide; [done|apply P7; lia].
        * lia.
        * by apply map_disjoint_insert_l_2.
        * lia.
        * lia.
        * lia.
        * lia.
        * rewrite insert_union_l. iExact "Hc".
      + iApply wp_if_false; [rewrite Hc; lia|]. wp_ret.
        iApply wp_if_false; [by rewrite Hst|]. wp_ret. iApply "HΦ".
        iApply (tabR_intro with "[HC] Hc"); [done|]. iExists j, (pw j), 0. iSplit; [done|]. iSplit; [done|].
        iSplit; [|iExists sg; by iFrame]. iPureIntro. rewrite -Hlen. split; [done|]. left. split_and!; try done; [lia|].
        destruct Hl2 as [|]; [by left|right; lia].
    - (* GROW *)
      wp_bind. iApply wp_if_false; [rewrite Hst; intros [? _]; done|]. wp_ret. iApply wp_if_true; [done|].
      destruct (hl_upper j low split Hsh Hbm) as (i & -> & -> & _).
      iApply (wp_hl_grow_run with "HC Hc HΦ"); try done; lia.
    - (* SHRINK *)
      destruct (hl_upper j low split Hsh Hbm) as (i & -> & -> & _).
      wp_bind. destruct (decide (pw (S i) / 2 < c)) as [Hgrow|Hno].
      + iApply wp_if_true; [by rewrite Hst Hc|]. wp_bind. iApply wp_if_false; [by rewrite Hst|]. wp_ret. wp_ret.
        iApply wp_if_true; [done|].
        iApply (wp_hl_grow_run _ (hl_set_state st STATE_GROW) i sg split _ int with "HC Hc HΦ"); try done; try lia.
        eapply hl_phys_fields; [|exact Hph]; done.
      + iApply wp_if_false; [rewrite Hc; lia|]. wp_ret.
        iApply wp_if_false; [by rewrite Hst|]. wp_ret. iApply "HΦ".
        iApply (tabR_intro with "[HC] Hc"); [done|]. iExists (S i), (pw i), split. iSplit; [done|]. iSplit; [done|].
        iSplit; [|iExists sg; by iFrame]. iPureIntro. rewrite -Hlen. split; [done|]. right; right. split_and!; try done; lia.
  Qed.

  (** *** hashlin_shrink_step *)
  Lemma wp_hl_shrink_run st i sg split es int cl c Φ :
    hl_phys st (S i) sg → hl_fields st (S i) (pw i) split → hl_state st = STATE_SHRINK →
    1 ≤ split ≤ pw i → int = segmap sg 0 (S (S i)) → int ##ₘ cl →
    hl_count st = c → c = Z.of_nat (length es) → c < 2 ^ 59 →
    (split = pw i → 8 * c < 2 * pw i) → c ≤ pw i → pw i ≤ 8 * c ∨ pw i + split ≤ 8 * c →
    hl_cells sg (S i) (pw i) split es -∗ hctl (int ∪ cl) -∗
    (∀ st', tabR hashlin_table hl_rep st' es cl -∗ Φ st') -∗
    wp (hashlin_shrink_loop (Z.to_nat (hl_low_max st)) st (wrap (8 * hl_count st))) Φ.
  Proof.
    iIntros (Hph Hf Hst Hs Hint Hdis Hc Hlen Hsz H0 H1 H8) "HC Hc HΦ".
    pose proof Hf as (Hb & Hm & Hmask & Hlm & Hlmask & Hsp). pose proof (pw_ge i). pose proof (pw_S i) as Hdbl.
    rewrite Hlm Hc. replace (wrap (8 * c)) with (8 * c) by (rewrite /wrap Z.mod_small; lia).
    iApply (wp_hl_shrink_loop with "HC Hc"); [done|done|done|done|lia|done|done|].
    iIntros (st' j' int' Hc' Hd' Hcase) "HT Hc". iApply "HΦ". iApply (tabR_intro with "[HT] Hc"); [done|].
    destruct Hcase as [(Hst' & -> & split' & Hs' & Htgt & Hf')|(Hst' & -> & Htgt & Hf')].
    - pose proof Hf' as (_ & _ & _ & Hlm' & _ & Hsp'). rewrite Hlm' Hsp'.
      iExists (S i), (pw i), split'. iFrame "HT". iPureIntro. split; [right; exists i; split; [done|]; split; [done|lia]|].
      split; [done|]. split; [congruence|]. right; right. rewrite -Hlen. split_and!; try done; lia.
    - pose proof Hf' as (_ & _ & _ & Hlm' & _ & Hsp'). rewrite Hlm' Hsp'.
      iExists i, (pw i), 0. iFrame "HT". iPureIntro. split; [by left|]. split; [done|].
      split; [congruence|]. left. rewrite -Hlen. split_and!; try done; lia.
  Qed.

  Lemma wp_hl_shrink_step st j low split es int cl c Φ :
    hl_shape j low split → hl_fields st j low split → int ##ₘ cl →
    c = Z.of_nat (length es) → 0 ≤ c < 2 ^ 59 - 1 →
    hl_load (hl_set_count st (c + 1)) j low split (c + 1) → hl_count st = c →
    hl_tab st j low split es int -∗ hctl (int ∪ cl) -∗
    (∀ st', tabR hashlin_table hl_rep st' es cl -∗ Φ st') -∗
    wp (hashlin_shrink_step st) Φ.
  Proof.
    iIntros (Hsh Hf Hdis Hlen Hsz [_ Hl] Hc) "(%sg & %Hph & %Hint & HC) Hc HΦ".
    pose proof Hf as (Hb & Hm & Hmask & Hlm & Hlmask & Hsp).
    pose proof (hp_j _ _ _ Hph) as Hj. pose proof (pw_ge j) as Hp64. pose proof (pw_le j Hj) as Hple.
    cbn [hl_set_count hl_state] in Hl.
    rewrite /hashlin_shrink_step Hm Hb /HASHLIN_BIT.
    pose proof (pw_8 j) as Hp8. pose proof (Z.div_mod (pw j) 8 ltac:(lia)) as Hdm.
    destruct Hl as [(Hst & -> & -> & Hl1 & Hl2)|[(Hst & Hs & Hbm & Hl1 & Hl2)|(Hst & Hs & Hbm & Hl1 & Hl2)]].
    - (* STABLE *)
      destruct (decide (c < pw j / 8 ∧ j ≠ 0%nat)) as [[Hlow Hj0]|Hno].
      + rewrite (decide_True _ _ (P:=hl_state st ≠ STATE_SHRINK ∧ _)); [|rewrite Hst Hc; split; [done|lia]].
        rewrite decide_True; [|done].
        destruct j as [|i]; [done|]. pose proof (pw_S i) as Hdbl. pose proof (pw_ge i).
        cbn [hl_set_low hl_set_split hl_set_state hl_state hl_bucket hl_bucket_max hl_bucket_mask hl_low_max hl_low_mask hl_split hl_count hl_bucket_bit].
        iApply wp_if_true; [done|].
        assert (Hd2 : pw (S i) / 2 = pw i) by (rewrite Hdbl Z.mul_comm Z.div_mul //).
        assert (Hd3 : (pw (S i) - 1) / 2 = pw i - 1).
        { rewrite Hdbl. symmetry. apply (Z.div_unique _ _ _ 1); lia. }
        iApply (wp_hl_shrink_run _ i sg (pw i) with "[HC] Hc HΦ"); try done; try lia.
        * eapply hl_phys_fields; [|exact Hph]; done.
        * rewrite /hl_fields /=. rewrite Hmask Hd3 Hd2. done.
        * iApply (hl_cells_slot with "HC"); [lia|]. intros h. rewrite hslot_full; [|lia]. rewrite hslot_0; [done|lia].
      + rewrite (decide_False _ _ (P:=hl_state st ≠ STATE_SHRINK ∧ _)); [|rewrite Hc; lia].
        iApply wp_if_false; [by rewrite Hst|]. wp_ret. iApply "HΦ".
        iApply (tabR_intro with "[HC] Hc"); [done|]. iExists j, (pw j), 0. iSplit; [done|]. iSplit; [done|].
        iSplit; [|iExists sg; by iFrame]. iPureIntro. rewrite -Hlen. split; [done|]. left. split_and!; try done; lia.
    - (* GROW *)
      destruct (hl_upper j low split Hsh Hbm) as (i & -> & -> & _). pose proof (pw_ge i).
      destruct (decide (c < pw (S i) / 8)) as [Hlow|Hno].
      + rewrite (decide_True _ _ (P:=hl_state st ≠ STATE_SHRINK ∧ _)); [|rewrite Hst Hc; split; [done|lia]].
        rewrite decide_False; [|by rewrite Hst]. iApply wp_if_true; [done|].
        iApply (wp_hl_shrink_run (hl_set_state st STATE_SHRINK) i sg split with "HC Hc HΦ"); try done; try lia.
        eapply hl_phys_fields; [|exact Hph]; done.
      + rewrite (decide_False _ _ (P:=hl_state st ≠ STATE_SHRINK ∧ _)); [|rewrite Hc; lia].
        iApply wp_if_false; [by rewrite Hst|]. wp_ret. iApply "HΦ".
        iApply (tabR_intro with "[HC] Hc"); [done|]. iExists (S i), (pw i), split. iSplit; [done|]. iSplit; [done|].
        iSplit; [|iExists sg; by iFrame]. iPureIntro. rewrite -Hlen. split; [done|]. right; left. split_and!; try done; lia.
    - (* SHRINK *)
      destruct (hl_upper j low split Hsh Hbm) as (i & -> & -> & _). pose proof (pw_ge i).
      pose proof (pw_8 i) as Hi8. pose proof (Z.div_mod (pw i) 8 ltac:(lia)) as Hdi.
      rewrite (decide_False _ _ (P:=hl_state st ≠ STATE_SHRINK ∧ _)); [|rewrite Hst; intros [? _]; done]. iApply wp_if_true; [done|].
      iApply (wp_hl_shrink_run with "HC Hc HΦ"); try done; lia.
  Qed.

  Lemma wp_hl_insert fuel st es p d h cl Φ : memG_env → fits fuel (S (length es)) → word h →
    tabR hashlin_table hl_rep st es cl -∗ freenode p -∗
    (∀ st', tabR hashlin_table hl_rep st' (es ++ [El p d (W h)]) cl -∗ Φ st') -∗
    wp (hashlin_insert fuel st p d h) Φ.
  Proof.
    iIntros (Henv [Hfu Hsz] Hw) "(%int & %Hdis & (%j & %low & %split & %Hsh & %Hf & %Hl & (%sg & %Hph & %Hint & (%B & %Hg & HB & Hraw))) & Hc) Hp HΦ".
    rewrite /hashlin_insert. wp_bind. iApply wp_hl_ref; [done|done|done|].
    iApply (wp_tab_insert with "HB Hp"); [done|done|done|].
    iIntros (B' Hg') "HB". pose proof Hl as [Hcount _].
    assert (Hlen : length (es ++ [El p d (W h)]) = S (length es)) by (rewrite app_length /=; lia).
    rewrite Hcount. replace (wrap (Z.of_nat (length es) + 1)) with (Z.of_nat (S (length es))) by (rewrite /wrap Z.mod_small; lia).
    iApply (wp_hl_grow_step _ _ j low split _ int _ (Z.of_nat (S (length es))) with "[HB Hraw] Hc HΦ"); try done.
    - rewrite Hlen. lia.
    - by rewrite Hlen.
    - replace (Z.of_nat (S (length es)) - 1) with (Z.of_nat (length es)) by lia.
      destruct Hl as [_ Hl]. split; [done|]. exact Hl.
    - iExists sg. iSplit; [iPureIntro; eapply hl_phys_fields; [|exact Hph]; done|]. iSplit; [done|].
      iExists B'. iFrame "Hraw". iSplit; [done|]. iExact "HB".
  Qed.

  Lemma hl_dec st j low split (es1 : list elem) e es2 :
    hl_load st j low split (Z.of_nat (length (es1 ++ e :: es2))) →
    Z.of_nat (length (es1 ++ e :: es2)) < 2 ^ 59 →
    let c := Z.of_nat (length (es1 ++ es2)) in
    let st1 := hl_set_count st (sub64 (hl_count st) 1) in
    0 ≤ c < 2 ^ 59 - 1 ∧ hl_load (hl_set_count st1 (c + 1)) j low split (c + 1) ∧ hl_count st1 = c.
  Proof.
    intros [Hc Hl] Hsz c st1. subst c st1. cbn [hl_set_count hl_count]. rewrite Hc.
    assert (He : Z.of_nat (length (es1 ++ e :: es2)) = Z.of_nat (length (es1 ++ es2)) + 1) by (rewrite !app_length /=; lia).
    rewrite He in Hl Hsz |- *. split; [lia|]. split; [by split|]. rewrite /sub64 Z.mod_small; lia.
  Qed.

  Lemma hl_tab_intro st st' j low split sg int es B :
    hl_phys st j sg → hl_bucket st' = hl_bucket st → int = segmap sg 0 (S j) →
    good (Z.to_nat (low + split)) (hslot low (pw j) split) es B →
    bks (haddr sg) (Z.to_nat (low + split)) B -∗
    ([∗ list] i ∈ seq (Z.to_nat (low + split)) (Z.to_nat (pw j - (low + split))), rawcell (haddr sg i)) -∗
    hl_tab st' j low split es int.
  Proof.
    iIntros (Hph Hb Hint Hg) "HB Hraw". iExists sg. iSplit; [iPureIntro; eapply hl_phys_fields; [|exact Hph]; done|].
    iSplit; [done|]. iExists B. iFrame "Hraw". iSplit; [done|]. iExact "HB".
  Qed.
  Lemma hl_rep_intro st j low split sg int es B :
    hl_shape j low split → hl_fields st j low split → hl_load st j low split (Z.of_nat (length es)) →
    hl_phys st j sg → int = segmap sg 0 (S j) →
    good (Z.to_nat (low + split)) (hslot low (pw j) split) es B →
    bks (haddr sg) (Z.to_nat (low + split)) B -∗
    ([∗ list] i ∈ seq (Z.to_nat (low + split)) (Z.to_nat (pw j - (low + split))), rawcell (haddr sg i)) -∗
    hl_rep st es int.
  Proof.
    iIntros (Hsh Hf Hl Hph Hint Hg) "HB Hraw". iExists j, low, split. iSplit; [done|]. iSplit; [done|]. iSplit; [done|].
    by iApply (hl_tab_intro with "HB Hraw").
  Qed.

  Lemma wp_hl_remove fuel st es ff f arg h cl Φ : fits fuel (length es) → word h → ereads ff f arg h es →
    tabR hashlin_table hl_rep st es cl -∗ t ↦ Tape [] -∗
    ((∀ st' es1 e es2 nx pv, ⌜es = es1 ++ e :: es2⌝ -∗ ⌜eacc f arg h e⌝ -∗
        ⌜Forall (λ e, ¬ eacc f arg h e) es1⌝ -∗ tabR hashlin_table hl_rep st' (es1 ++ es2) cl -∗ nodeP e nx pv -∗
        t ↦ Tape (ecalls arg h (es1 ++ [e])) -∗ Φ (st', e_d e)) ∧
     (⌜Forall (λ e, ¬ eacc f arg h e) es⌝ -∗ tabR hashlin_table hl_rep st es cl -∗ t ↦ Tape (ecalls arg h es) -∗ Φ (st, 0))) -∗
    wp (hashlin_remove fuel st (tape_cmp t (λ _, ff)) arg h) Φ.
  Proof.
    iIntros ([Hfu Hsz] Hw Hrd) "(%int & %Hdis & (%j & %low & %split & %Hsh & %Hf & %Hl & (%sg & %Hph & %Hint & (%B & %Hg & HB & Hraw))) & Hc) Ht HΦ".
    rewrite /hashlin_remove. wp_bind. iApply wp_hl_ref; [done|done|done|].
    iApply (wp_tab_remove with "HB Ht"); [done|done|done|done|done|].
    iSplit.
    - iIntros (B' es1 e es2 nx pv -> Hacc Hno Hg') "HB (%Hp&Hn&Hv&Hd&Hi) Ht". wp_bind.
      destruct (hl_dec st j low split es1 e es2 Hl Hsz) as (Hs1 & Hl1 & Hc1).
      iApply (wp_hl_shrink_step _ j low split _ int with "[HB Hraw] Hc"); [done|done|done|reflexivity|done|done|done| |].
      { by iApply (hl_tab_intro with "HB Hraw"). }
      iIntros (st') "HR". wp_load. wp_ret.
      iDestruct "HΦ" as "[HΦ _]". iApply ("HΦ" with "[//] [//] [//] HR [$Hn $Hv $Hd $Hi //] Ht").
    - iIntros (Hno) "HB Ht". wp_ret. iDestruct "HΦ" as "[_ HΦ]". iApply ("HΦ" with "[//] [HB Hraw Hc] Ht").
      iApply (tabR_intro with "[HB Hraw] Hc"); [done|]. by iApply (hl_rep_intro with "HB Hraw").
  Qed.

  Lemma wp_hl_remove_existing (fuel : nat) st es1 e es2 cl Φ : fits fuel (length (es1 ++ e :: es2)) →
    tabR hashlin_table hl_rep st (es1 ++ e :: es2) cl -∗
    (∀ st' nx pv, tabR hashlin_table hl_rep st' (es1 ++ es2) cl -∗ nodeP e nx pv -∗ Φ (st', e_d e)) -∗
    wp (hashlin_remove_existing st (e_p e)) Φ.
  Proof.
    iIntros ([_ Hsz]) "(%int & %Hdis & (%j & %low & %split & %Hsh & %Hf & %Hl & (%sg & %Hph & %Hint & (%B & %Hg & HB & Hraw))) & Hc) HΦ".
    rewrite /hashlin_remove_existing. iDestruct (tab_index with "HB") as "[Hi HB]"; first done.
    wp_load. iDestruct ("HB" with "Hi") as "HB". wp_bind. iApply wp_hl_ref; [done|done|done|]. wp_bind.
    iApply (wp_tab_unlink with "HB"); [done|done|].
    iIntros (B' nx pv Hg') "HB (%Hp&Hn&Hv&Hd&Hi)". wp_bind.
    destruct (hl_dec st j low split es1 e es2 Hl Hsz) as (Hs1 & Hl1 & Hc1).
    iApply (wp_hl_shrink_step _ j low split _ int with "[HB Hraw] Hc"); [done|done|done|reflexivity|done|done|done| |].
    { by iApply (hl_tab_intro with "HB Hraw"). }
    iIntros (st') "HR". wp_load. wp_ret.
    iApply ("HΦ" with "HR [$Hn $Hv $Hd $Hi //]").
  Qed.

  Lemma wp_hl_search fuel st es ff f arg h int Φ : fits fuel (length es) → word h → ereads ff f arg h es →
    hl_rep st es int -∗ t ↦ Tape [] -∗
    ((∀ es1 e es2, ⌜es = es1 ++ e :: es2⌝ -∗ ⌜eacc f arg h e⌝ -∗
        ⌜Forall (λ e, ¬ eacc f arg h e) es1⌝ -∗ hl_rep st es int -∗
        t ↦ Tape (ecalls arg h (es1 ++ [e])) -∗ Φ (e_d e)) ∧
     (⌜Forall (λ e, ¬ eacc f arg h e) es⌝ -∗ hl_rep st es int -∗ t ↦ Tape (ecalls arg h es) -∗ Φ 0)) -∗
    wp (hashlin_search fuel st (tape_cmp t (λ _, ff)) arg h) Φ.
  Proof.
    iIntros ([Hfu Hsz] Hw Hrd) "(%j & %low & %split & %Hsh & %Hf & %Hl & (%sg & %Hph & %Hint & (%B & %Hg & HB & Hraw))) Ht HΦ".
    rewrite /hashlin_search /hashlin_bucket. iApply wp_assoc. wp_bind. iApply wp_hl_ref; [done|done|done|].
    iApply (wp_tab_search with "HB Ht"); [done|done|done|done|done|].
    iSplit.
    - iIntros (es1 e es2 -> Hacc Hno) "HB Ht".
      iDestruct "HΦ" as "[HΦ _]". iApply ("HΦ" with "[//] [//] [//] [HB Hraw] Ht").
      by iApply (hl_rep_intro with "HB Hraw").
    - iIntros (Hno) "HB Ht". iDestruct "HΦ" as "[_ HΦ]". iApply ("HΦ" with "[//] [HB Hraw] Ht").
      by iApply (hl_rep_intro with "HB Hraw").
  Qed.

  Lemma wp_hl_bucket st es h int Φ : word h →
    hl_rep st es int -∗
    (∀ b pv, ⌜b ⊆+ es⌝ -∗ ⌜fh h b = fh h es⌝ -∗ dseg b pv 0 -∗ (dseg b pv 0 -∗ hl_rep st es int) -∗ Φ (hd_p b 0)) -∗
    wp (hashlin_bucket st h) Φ.
  Proof.
    iIntros (Hw) "(%j & %low & %split & %Hsh & %Hf & %Hl & (%sg & %Hph & %Hint & (%B & %Hg & HB & Hraw))) HΦ".
    rewrite /hashlin_bucket. wp_bind. iApply wp_hl_ref; [done|done|done|].
    iApply (wp_tab_bucket with "HB"); [done|done|done|].
    iIntros (b pv Hb Hfh) "Hd HB". iApply ("HΦ" with "[//] [//] Hd"). iIntros "Hd".
    iDestruct ("HB" with "Hd") as "HB". by iApply (hl_rep_intro with "HB Hraw").
  Qed.

  Lemma hl_valid st j low split : hl_shape j low split → hl_fields st j low split → (j ≤ 54)%nat →
    wrap (hl_low_max st + hl_split st) = low + split ∧ Z.of_nat (Z.to_nat (low + split)) = low + split ∧
    low + split ≤ pw j ∧ pw j ≤ 2 ^ 60.
  Proof.
    intros Hsh (_ & _ & _ & Hlm & _ & Hsp) Hj. rewrite Hlm Hsp. pose proof (hl_shape_range _ _ _ Hsh).
    pose proof (pw_le j Hj). rewrite /wrap Z.mod_small; lia.
  Qed.

  Lemma wp_hl_foreach_ro fuel st es int func (I : list elem → iProp) Φ : fits fuel (length es) →
    □ (∀ dn x, I dn -∗ wp (func (e_d x)) (λ _, I (dn ++ [x]))) -∗
    hl_rep st es int -∗ I [] -∗ (∀ es', ⌜es' ≡ₚ es⌝ -∗ hl_rep st es int -∗ I es' -∗ Φ tt) -∗
    wp (hashlin_foreach fuel st func) Φ.
  Proof.
    iIntros ([Hfu Hsz]) "#Hfunc (%j & %low & %split & %Hsh & %Hf & %Hl & (%sg & %Hph & %Hint & (%B & %Hg & HB & Hraw))) HI HΦ".
    rewrite /hashlin_foreach. destruct (hl_valid st j low split Hsh Hf (hp_j _ _ _ Hph)) as (-> & Hn & Hn1 & Hn2).
    iApply (wp_tab_foreach_ro _ _ _ fuel with "Hfunc HB HI"); [done|lia|done| |].
    { iIntros (i Ψ Hi) "H". iApply (wp_hashlin_pos st j sg i); [done|done|lia|done]. }
    iIntros (es' Hp) "HB HI". iApply ("HΦ" with "[//] [HB Hraw] HI"). by iApply (hl_rep_intro with "HB Hraw").
  Qed.

  Lemma wp_hl_foreach fuel st es int func (I : list elem → iProp) Φ : fits fuel (length es) →
    □ (∀ dn x more nx pv, ⌜dn ++ x :: more ≡ₚ es⌝ -∗ I dn -∗ nodeP x nx pv -∗ wp (func (e_d x)) (λ _, I (dn ++ [x]))) -∗
    hl_rep st es int -∗ I [] -∗ (∀ es', ⌜es' ≡ₚ es⌝ -∗ hl_shell st int -∗ I es' -∗ Φ tt) -∗
    wp (hashlin_foreach fuel st func) Φ.
  Proof.
    iIntros ([Hfu Hsz]) "#Hfunc (%j & %low & %split & %Hsh & %Hf & %Hl & (%sg & %Hph & %Hint & (%B & %Hg & HB & Hraw))) HI HΦ".
    rewrite /hashlin_foreach. destruct (hl_valid st j low split Hsh Hf (hp_j _ _ _ Hph)) as (-> & Hn & Hn1 & Hn2).
    iApply (wp_tab_foreach _ _ _ fuel with "Hfunc HB HI"); [done|lia|done| |].
    { iIntros (i Ψ Hi) "H". iApply (wp_hashlin_pos st j sg i); [done|done|lia|done]. }
    iIntros (es' Hp) "HB HI". iApply ("HΦ" with "[//] [HB Hraw] HI").
    iExists j, sg. destruct Hf as (Hb & _). iSplit; [done|]. iSplit; [done|]. iSplit; [done|].
    iApply (raws_join with "HB Hraw"). lia.
  Qed.

  Lemma haddr_cells st j sg i : hl_phys st j sg → Z.of_nat i < pw j → haddr sg i ∈ blocks_cells (segmap sg 0 (S j)).
  Proof.
    intros Hph Hi. rewrite /blocks_cells.
    assert (Hin : ∀ s q, (s ≤ j)%nat → (q < segsize s)%nat →
      sg s + 8 * Z.of_nat q ∈ (map_to_list (segmap sg 0 (S j)) ≫= λ ar, region_cells ar.1 ar.2)).
    { intros s q Hs Hq. apply elem_of_list_bind. exists (sg s, RWords (segsize s)). split.
      - simpl. apply elem_of_list_fmap. exists q. split; [done|]. apply elem_of_seq. lia.
      - apply elem_of_map_to_list, segmap_lookup; [lia|]. intros a b ??. apply (hp_inj _ _ _ Hph); lia. }
    destruct (haddr_inv i j Hi) as [H64|(s & q & Hs & Hq & ->)].
    - rewrite haddr_low //. apply Hin; [lia|done].
    - rewrite haddr_seg //. apply Hin; [lia|done].
  Qed.

  Lemma hl_visits st es int m : hl_rep st es int -∗ memI m -∗ ⌜visits hashlin_table st (en <$> es) int m⌝.
  Proof.
    iIntros "(%j & %low & %split & %Hsh & %Hf & %Hl & (%sg & %Hph & -> & (%B & %Hg & HB & Hraw))) Hm".
    destruct (hl_valid st j low split Hsh Hf (hp_j _ _ _ Hph)) as (Hw & Hn & Hn1 & Hn2).
    iApply (bks_visits _ _ _ hashlin_table st es B _ (hashlin_pos st) with "HB Hm"); [exact Hg|lia| | |].
    - intros i m1 Hi. apply (hashlin_pos_ok st j sg i m1 Hph). lia.
    - intros i Hi. apply (haddr_cells st j sg i Hph). lia.
    - intros fuel func. by rewrite /= /hashlin_foreach Hw.
  Qed.

  Lemma hl_ref_ok st j low split sg h m :
    hl_shape j low split → hl_fields st j low split → hl_phys st j sg →
    hashlin_bucket_ref st h m = Ok (haddr sg (Z.to_nat (hslot low (pw j) split h))) m.
  Proof.
    intros Hsh (Hb & Hm & Hmask & Hlm & Hlmask & Hsp) Hph. rewrite /hashlin_bucket_ref Hmask Hlmask Hsp.
    assert (Hl : Z.land h (low - 1) = h mod low).
    { destruct Hsh as [[-> _]|(i & _ & -> & _)]; apply land_ones_mod; lia. }
    rewrite Hl {1}/pw land_ones_mod; [|lia]. rewrite -/(pw j) -/(hslot low (pw j) split h).
    pose proof (hl_shape_slot _ _ _ h Hsh). pose proof (hl_shape_range _ _ _ Hsh).
    rewrite -(hashlin_pos_ok st j sg _ m Hph); [|lia]. by rewrite Z2Nat.id; [|lia].
  Qed.

  Lemma hl_chains st es int m : hl_rep st es int -∗ memI m -∗ ⌜chains hashlin_table st (en <$> es) m⌝.
  Proof.
    iIntros "(%j & %low & %split & %Hsh & %Hf & %Hl & (%sg & %Hph & -> & (%B & %Hg & HB & Hraw))) Hm".
    iApply (bks_chains _ _ _ hashlin_table st es B with "HB Hm"); [exact Hg| |].
    - intros h _. destruct Hf as (_ & Hm & _ & Hlm & _ & Hsp). by rewrite /= Hm Hlm Hsp.
    - intros h v _ Hv. rewrite /= /hashlin_bucket /mbind /M_bind (hl_ref_ok st j low split sg) //. by rewrite /load Hv.
  Qed.

  Lemma hl_blocks st int : hl_shell st int ⊢ blocks_own int.
  Proof.
    iIntros "(%j & %sg & %Hph & _ & -> & HB)". rewrite seg_cells /blocks_own /segmap big_opM_map_to_list map_to_list_to_map.
    2:{ rewrite -list_fmap_compose. apply NoDup_fmap_2_strong; [|apply NoDup_seq].
        intros a b Ha%elem_of_seq Hb%elem_of_seq. simpl. intros. apply (hp_inj _ _ _ Hph); lia || done. }
    rewrite big_sepL_fmap. iApply (big_sepL_impl with "HB"). iIntros "!>" (i k [-> Hi]%lookup_seq) "H /=".
    destruct (hp_pos _ _ _ Hph i ltac:(lia)) as [Hq0 Hq1].
    iSplit; [|by iApply (rawcells_region with "H")]. iPureIntro. apply block_ok_16; [done| |done].
    apply (hp_al _ _ _ Hph). lia.
  Qed.

  Lemma segmap_bytes sg j : (∀ a b, (a ≤ j)%nat → (b ≤ j)%nat → sg a = sg b → a = b) →
    heap_bytes (segmap sg 0 (S j)) = 8 * pw j.
  Proof.
    induction j as [|j IH]; intros Hinj.
    - rewrite segmap_cons heap_bytes_insert; [|by apply segmap_None; intros; lia]. rewrite heap_bytes_empty. done.
    - rewrite (segmap_snoc sg 0 (S j)).
      2:{ apply segmap_None. intros i Hi He. apply Hinj in He; lia. }
      rewrite heap_bytes_insert.
      2:{ apply segmap_None. intros i Hi He. apply Hinj in He; lia. }
      rewrite IH; [|intros; apply Hinj; lia || done]. rewrite pw_S. pose proof (pw_ge j). cbn [segsize Nat.add region_bytes].
      rewrite -/(pw j). lia.
  Qed.

  Lemma hl_memory st es int : hl_rep st es int ⊢
    ⌜hashlin_memory_usage st = wrap (heap_bytes int + 32 * Z.of_nat (length es))⌝.
  Proof.
    iIntros "(%j & %low & %split & %Hsh & %Hf & %Hl & (%sg & %Hph & -> & _))". iPureIntro.
    destruct Hf as (_ & Hmax & _). destruct Hl as [Hc _].
    rewrite segmap_bytes; [|exact (hp_inj _ _ _ Hph)]. rewrite /hashlin_memory_usage Hmax Hc /wrap -Zplus_mod.
    f_equal. lia.
  Qed.

  Definition hl_proof : memG_env → table_proof hashlin_table hashlin_inv t.
  Proof.
    intros Henv. refine (TableProof hashlin_table hashlin_inv _ t hl_rep hl_shell hl_shell_of hl_rep_inv _ wp_hl_done
      _ wp_hl_remove wp_hl_remove_existing wp_hl_search wp_hl_bucket wp_hl_foreach_ro wp_hl_foreach _
      hl_visits hl_chains hl_blocks hl_memory).
    - intros. by apply wp_hl_init.
    - intros. by apply wp_hl_insert.
    - done.
  Defined.
End hashlin.

Lemma hashlin_history om K t live m fuel c :
  table_start om K t live m → (size om ≤ fuel)%nat →
  allowed (tpre om K) tpost (tstate0 om live) c →
  safe (run (tstep hashlin_table fuel t) None c m) (λ r m',
    table_end hashlin_table hashlin_inv om live r.1 r.2 m' ∧ unchanged_outside (HCTL :: t :: objs_cells om) m m').
Proof. apply table_history. intros. by apply hl_proof. Qed.
