(** * The dynamic hashtable *)
From Verif Require Export HashTblProof.
Global Open Scope Z_scope.
Local Typeclasses Transparent nodeP freenode freenode_i lst.

(** Facts on the struct in every state. *)
Definition hashdyn_inv (st : hashdyn) (n : nat) : Prop :=
  (∃ k, 4 <= k <= 60 ∧ hd_bucket_max st = 2 ^ k ∧ hd_bucket_bit st = k) ∧
  hd_bucket_mask st = hd_bucket_max st - 1 ∧ 16 <= hd_bucket_max st ∧
  2 * Z.of_nat n < hd_bucket_max st ∧
  (hd_bucket_max st = 16 ∨ hd_bucket_max st < 8 * Z.of_nat n) ∧
  hd_count st = Z.of_nat n.

(** ** Changing the number of buckets *)
Lemma good_change n slot es B n' slot' B' : good n slot es B →
  (∀ h, word h → 0 <= slot' h < Z.of_nat n') →
  (∀ i, (i < n')%nat → Forall (λ e, slot' (e_h e) = Z.of_nat i) (B' i)) →
  (∀ h, word h → fh h (B' (Z.to_nat (slot' h))) = fh h (B (Z.to_nat (slot h)))) →
  (∀ i, (i < n')%nat → Forall hashed (B' i)) →
  good n' slot' es B'.
Proof.
  intros Hg H1 H2 H3 H4. constructor; [done|done| |by eapply good_hashed|done].
  intros h Hh. rewrite H3 //. by eapply good_fh.
Qed.

(** The elements of [l] that go in the slot [i]. *)
Definition part (slot : Z → Z) (i : Z) (l : list elem) : list elem := filter (λ e, slot (e_h e) = i) l.

Lemma part_fh slot h l : fh h (part slot (slot h) l) = fh h l.
Proof.
  rewrite /fh /part. induction l as [|e l IH]; [done|]. rewrite !filter_cons.
  destruct (decide (e_h e = h)) as [He|He].
  - rewrite He decide_True //. rewrite filter_cons decide_True // IH //.
  - case_decide; [rewrite filter_cons decide_False //|done].
Qed.
Lemma part_slot slot i l : Forall (λ e, slot (e_h e) = i) (part slot i l).
Proof. apply Forall_forall. by intros e [? _]%elem_of_list_filter. Qed.
Lemma part_hashed slot i l : Forall hashed l → Forall hashed (part slot i l).
Proof. rewrite !Forall_forall. intros H e [_ ?]%elem_of_list_filter. auto. Qed.

Lemma good_part n slot es B n' slot' low : good n slot es B →
  (∀ h, word h → 0 <= slot' h < Z.of_nat n') →
  (∀ i, (i < n')%nat → (low i < n)%nat) →
  (∀ h, word h → low (Z.to_nat (slot' h)) = Z.to_nat (slot h)) →
  good n' slot' es (λ i, part slot' (Z.of_nat i) (B (low i))).
Proof.
  intros Hg Hs Hlow Hl. eapply good_change; [done|done| | |].
  - intros i Hi. apply part_slot.
  - intros h Hh. rewrite Hl //. rewrite Z2Nat.id; [|by apply Hs]. apply part_fh.
  - intros i Hi. apply part_hashed. eapply good_hashed_B; [done|]. by apply Hlow.
Qed.

Lemma pslot_S k h : 0 ≤ k → pslot k h = pslot (k + 1) h mod 2 ^ k.
Proof.
  intros Hk. rewrite /pslot Z.pow_add_r // (Z.mul_comm (2 ^ k)). change (2 ^ 1) with 2.
  pose proof (Z.pow_pos_nonneg 2 k). rewrite (Z.mul_comm 2). rewrite Z.rem_mul_r; [|lia|lia].
  rewrite (Z.mul_comm (2 ^ k)) Z.mod_add; [|lia]. rewrite Z.mod_mod; lia.
Qed.
Lemma pslot_S_cases k h : 0 ≤ k → pslot (k + 1) h = pslot k h ∨ pslot (k + 1) h = pslot k h + 2 ^ k.
Proof.
  intros Hk. rewrite (pslot_S k) //. pose proof (Z.pow_pos_nonneg 2 k).
  assert (Hr : 0 ≤ pslot (k + 1) h < 2 * 2 ^ k).
  { rewrite /pslot Z.pow_add_r // Z.mul_comm. apply Z.mod_pos_bound. lia. }
  destruct (decide (pslot (k + 1) h < 2 ^ k)).
  - left. rewrite Z.mod_small //; lia.
  - right. rewrite -(Z.mod_add _ (-1)) ?(Z.mod_small (_ + _)); lia.
Qed.

Section reinsert.
  Context `{!memG}.

  (** Append a node already filled. *)
  Lemma wp_append l x nx pv xs {R} (k : M R) Φ :
    nodeP x nx pv -∗ lst l xs -∗ (lst l (xs ++ [x]) -∗ wp k Φ) -∗
    wp (head ← load l;
        (if decide (head ≠ null) then list_insert_tail_not_empty head (e_p x) else list_insert_first l (e_p x));;
        k) Φ.
  Proof.
    iIntros "(%Hp&Hn&Hv&Hd&Hi) [Hl Hxs] HΦ". wp_load. wp_bind.
    destruct (decide (xs = [])) as [->|Hne]; cbn [hd_p].
    - iApply wp_if_false; [by intros []|]. rewrite /list_insert_first. wp_store. wp_store. iApply (wp_store with "Hl"); [right; by eexists|]. iIntros "Hl".
      iApply "HΦ". rewrite /lst /=. by iFrame.
    - iDestruct (dseg_ends with "Hxs") as "(%Hhp&Hhp&Htn&Hxs)"; first done.
      iApply wp_if_true; [rewrite /null; lia|]. rewrite /list_insert_tail_not_empty.
      wp_load. wp_store. wp_store. wp_store. wp_load. iApply (wp_store with "Htn"); [right; by eexists|]. iIntros "Htn".
      iApply "HΦ". rewrite /lst last_p_snoc hd_p_app hd_last_indep //. iFrame "Hl".
      rewrite dseg_snoc /=. iSplitR "Hn Hv Hd Hi".
      + iApply ("Hxs" with "Hhp Htn").
      + rewrite (last_p_indep _ 0) //. by iFrame.
  Qed.

  Lemma wp_hashdyn_reinsert xs fuel nb mask slot i0 i1 L0 L1 pv Φ :
    (length xs ≤ fuel)%nat → i0 ≠ i1 →
    Forall (λ x, hashed x ∧ nb + 8 * Z.land (e_h x) mask = nb + 8 * slot (e_h x) ∧
                 (slot (e_h x) = i0 ∨ slot (e_h x) = i1)) xs →
    dseg xs pv 0 -∗ lst (nb + 8 * i0) L0 -∗ lst (nb + 8 * i1) L1 -∗
    (lst (nb + 8 * i0) (L0 ++ part slot i0 xs) -∗ lst (nb + 8 * i1) (L1 ++ part slot i1 xs) -∗ Φ tt) -∗
    wp (hashdyn_reinsert fuel nb mask (hd_p xs 0)) Φ.
  Proof.
    revert fuel L0 L1 pv. induction xs as [|x xs IH]; intros fuel L0 L1 pv Hf Hne HF; iIntros "Hd H0 H1 HΦ".
    { destruct fuel; cbn [hd_p hashdyn_reinsert]; (iApply wp_if_true; [done|]); wp_ret; rewrite !app_nil_r; by iApply ("HΦ" with "H0 H1"). }
    destruct fuel as [|fuel]; simpl in Hf; [lia|]. apply Forall_cons in HF as [(Hh & Ha & Hs) HF].
    cbn [hd_p hashdyn_reinsert]. rewrite dseg_cons. iDestruct "Hd" as "[(%Hp&Hn&Hv&Hda&Hi) Hd]".
    iApply wp_if_false; [rewrite /null; lia|].
    destruct (hashed_e _ Hh) as [He _]. rewrite He. wp_load. wp_load. rewrite Ha.
    iAssert (nodeP x (hd_p xs 0) pv) with "[Hn Hv Hda Hi]" as "Hn".
    { rewrite /nodeP He. by iFrame. }
    destruct Hs as [Hs|Hs]; rewrite Hs.
    - iApply (wp_append with "Hn H0"). iIntros "H0". iApply (IH with "Hd H0 H1"); [lia|done|done|].
      rewrite /part !filter_cons Hs. rewrite decide_True // decide_False // -app_assoc. done.
    - iApply (wp_append with "Hn H1"). iIntros "H1". iApply (IH with "Hd H0 H1"); [lia|done|done|].
      rewrite /part !filter_cons Hs. rewrite decide_False; [|done]. rewrite decide_True // -app_assoc. done.
  Qed.
End reinsert.

Section resize.
  Context `{!memG}.

  Lemma wp_hashdyn_grow_loop n fuel b nb k i N (B : nat → list elem) Φ :
    (i + n)%nat = N → Z.of_nat N = 2 ^ k → 0 ≤ k ≤ 59 →
    (∀ j, (j < N)%nat → Forall hashed (B j) ∧ Forall (λ e, pslot k (e_h e) = Z.of_nat j) (B j) ∧ (length (B j) ≤ fuel)%nat) →
    ([∗ list] j ∈ seq i n, lst (vec b j) (B j) ∗ rawcell (vec nb j) ∗ rawcell (vec nb (N + j)%nat)) -∗
    (([∗ list] j ∈ seq i n, rawcell (vec b j) ∗ lst (vec nb j) (part (pslot (k + 1)) (Z.of_nat j) (B j)) ∗
        lst (vec nb (N + j)%nat) (part (pslot (k + 1)) (Z.of_nat (N + j)) (B j))) -∗ Φ tt) -∗
    wp (hashdyn_grow_loop fuel n b (2 ^ k) nb (2 ^ (k + 1) - 1) (Z.of_nat i)) Φ.
  Proof.
    revert i Φ. induction n as [|n IH]; intros i Φ Hi HN Hk HB; iIntros "H HΦ".
    { wp_ret. by iApply "HΦ". }
    pose proof (pow2_small k ltac:(lia)) as Hp. cbn [hashdyn_grow_loop seq]. rewrite big_sepL_cons.
    iDestruct "H" as "[([Hl Hd] & (%c0 & %Hc0 & H0) & (%c1 & %Hc1 & H1)) H]".
    assert (Hw : wrap (Z.of_nat i + 2 ^ k) = Z.of_nat (N + i)) by (rewrite /wrap Z.mod_small; lia).
    rewrite Hw. rewrite /vec. wp_store. wp_store. wp_load. wp_bind.
    destruct (HB i ltac:(lia)) as (Hh & Hs & Hlen).
    iApply (wp_hashdyn_reinsert _ _ _ _ (pslot (k + 1)) (Z.of_nat i) (Z.of_nat (N + i)) [] [] with "Hd [H0] [H1]").
    - done.
    - lia.
    - apply Forall_forall. intros x Hx. rewrite Forall_forall in Hh. rewrite Forall_forall in Hs.
      split; [by apply Hh|]. split; [rewrite land_ones_mod //; lia|].
      specialize (Hs x Hx). simpl in Hs. destruct (pslot_S_cases k (e_h x)) as [->| ->]; [lia|left; done|right; lia].
    - rewrite /lst /=. by iFrame.
    - rewrite /lst /=. by iFrame.
    - iIntros "H0 H1". replace (wrap (Z.of_nat i + 1)) with (Z.of_nat (S i)) by (rewrite /wrap Z.mod_small; lia).
      iApply (IH with "H"); [lia|done|done|done|]. iIntros "H". iApply "HΦ". cbn [seq]. rewrite big_sepL_cons.
      iFrame "H". simpl. iFrame. iExists _. iFrame. iPureIntro. right. by eexists.
  Qed.

  Lemma wp_hashdyn_shrink_loop n b nb k i N (B : nat → list elem) Φ :
    (i + n)%nat = N → Z.of_nat N = 2 ^ k → 0 ≤ k ≤ 59 →
    ([∗ list] j ∈ seq i n, lst (vec b j) (B j) ∗ lst (vec b (N + j)%nat) (B (N + j)%nat) ∗ rawcell (vec nb j)) -∗
    (([∗ list] j ∈ seq i n, rawcell (vec b j) ∗ rawcell (vec b (N + j)%nat) ∗ lst (vec nb j) (B j ++ B (N + j)%nat)) -∗ Φ tt) -∗
    wp (hashdyn_shrink_loop n b nb (2 ^ k) (Z.of_nat i)) Φ.
  Proof.
    revert i Φ. induction n as [|n IH]; intros i Φ Hi HN Hk; iIntros "H HΦ".
    { wp_ret. by iApply "HΦ". }
    pose proof (pow2_small k ltac:(lia)) as Hp. cbn [hashdyn_shrink_loop seq]. rewrite big_sepL_cons.
    iDestruct "H" as "[([Hl Hd] & H1 & (%c0 & %Hc0 & H0)) H]".
    assert (Hw : wrap (Z.of_nat i + 2 ^ k) = Z.of_nat (N + i)) by (rewrite /wrap Z.mod_small; lia).
    rewrite Hw. rewrite /vec. wp_load. wp_store. wp_bind.
    iApply (wp_list_concat with "[$H0 $Hd] H1"). iIntros "H0 H1".
    replace (wrap (Z.of_nat i + 1)) with (Z.of_nat (S i)) by (rewrite /wrap Z.mod_small; lia).
    iApply (IH with "H"); [lia|done|done|]. iIntros "H". iApply "HΦ". cbn [seq]. rewrite big_sepL_cons.
    iFrame "H". iFrame "H0". iSplitL "Hl"; iExists _; iFrame; iPureIntro; right; by eexists.
  Qed.
End resize.

Section hashdyn.
  Context `{!memG}.
  Variable t : Z.

  (** The structure of the table, with any count. *)
  Definition hd_struct (st : hashdyn) (k : Z) : Prop :=
    4 ≤ k ≤ 60 ∧ hd_bucket_bit st = k ∧ hd_bucket_max st = 2 ^ k ∧ hd_bucket_mask st = 2 ^ k - 1 ∧
    block_ok (hd_bucket st) (RWords (Z.to_nat (2 ^ k))).
  Definition hd_load (st : hashdyn) (k : Z) (c : Z) : Prop :=
    hd_count st = c ∧ 2 * c < 2 ^ k ∧ (k = 4 ∨ 2 ^ k < 8 * c).

  Definition hd_tab (st : hashdyn) (k : Z) (es : list elem) (int : gmap Z region) : iProp :=
    ∃ B, ⌜int = {[hd_bucket st := RWords (Z.to_nat (2 ^ k))]}⌝ ∗
      ⌜good (Z.to_nat (2 ^ k)) (pslot k) es B⌝ ∗ bks (vec (hd_bucket st)) (Z.to_nat (2 ^ k)) B.
  Definition hd_rep (st : hashdyn) (es : list elem) (int : gmap Z region) : iProp :=
    ∃ k, ⌜hd_struct st k⌝ ∗ ⌜hd_load st k (Z.of_nat (length es))⌝ ∗ hd_tab st k es int.
  Definition hd_shell (st : hashdyn) (int : gmap Z region) : iProp :=
    ∃ n, ⌜block_ok (hd_bucket st) (RWords n)⌝ ∗ ⌜int = {[hd_bucket st := RWords n]}⌝ ∗
      [∗ list] i ∈ seq 0 n, rawcell (vec (hd_bucket st) i).

  Lemma hd_shell_of st es int : hd_rep st es int ⊢ ([∗ list] e ∈ es, ∃ nx pv, nodeP e nx pv) ∗ hd_shell st int.
  Proof.
    iIntros "(%k & %Hs & %Hl & (%B & %Hint & %Hg & HB))". rewrite bks_nodes //. iDestruct "HB" as "[$ HB]".
    iExists _. iFrame. iPureIntro. destruct Hs as (?&?&?&?&?). done.
  Qed.

  Lemma hd_rep_inv st es int :
    hd_rep st es int ⊢ ⌜Forall hashed es ∧ hd_count st = Z.of_nat (length es) ∧ hashdyn_inv st (length es)⌝.
  Proof.
    iIntros "(%k & %Hs & %Hl & (%B & %Hint & %Hg & HB))". iPureIntro.
    destruct Hs as (Hk&Hb&Hm&Hmask&_). destruct Hl as (Hc & H1 & H2).
    split; [by eapply good_hashed|]. split; [done|].
    assert (2 ^ 4 ≤ 2 ^ k) by (apply Z.pow_le_mono_r; lia). change (2 ^ 4) with 16 in *.
    split; [by exists k|]. rewrite Hm. split; [done|]. split; [done|]. split; [done|]. split; [|done].
    destruct H2 as [->|]; auto.
  Qed.

  Lemma wp_hd_init cl Φ : memG_env →
    hctl cl -∗ (∀ st, tabR hashdyn_table hd_rep st [] cl -∗ Φ st) -∗ wp hashdyn_init Φ.
  Proof.
    iIntros (Henv) "Hc HΦ". rewrite /hashdyn_init. change (shl64 1 HASHDYN_BIT) with 16.
    wp_bind. rewrite /calloc_words. iApply wp_if_true; [done|].
    iApply (wp_alloc_region with "Hc"); [done|]. iIntros (a Ha Ham Hab Hal Hdis) "Hc Hcells". wp_ret.
    iApply "HΦ". iExists {[a := RWords 16]}. iSplit; [iPureIntro; by apply map_disjoint_singleton_l|].
    rewrite -insert_union_singleton_l. iFrame "Hc". iExists 4. iSplit.
    { iPureIntro. split_and!; try done. by apply block_ok_16. } iSplit.
    { iPureIntro. split; [done|]. split; [done|]. by left. }
    iExists (λ _, []). rewrite region_zero_bks. iFrame. iPureIntro. split; [done|].
    apply good_nil. intros h _. by apply pslot_range.
  Qed.

  Lemma wp_hd_done st int cl Φ : int ##ₘ cl →
    hd_shell st int -∗ hctl (int ∪ cl) -∗ (hctl cl -∗ Φ tt) -∗ wp (hashdyn_done st) Φ.
  Proof.
    iIntros (Hd) "(%n & %Hpos & -> & HB) Hc HΦ".
    iApply (wp_free _ (RWords n) with "Hc [HB]").
    - destruct Hpos. lia.
    - by rewrite lookup_union_l' ?lookup_singleton.
    - by iApply rawcells_region.
    - apply map_disjoint_singleton_l in Hd. rewrite delete_union delete_singleton left_id_L delete_notin //.
  Qed.

  (** What a resize gives back. *)
  Definition hd_resized (st : hashdyn) (k' : Z) (es : list elem) (cl : gmap Z region) (Φ : hashdyn → iProp) : iProp :=
    ∀ st' int', ⌜hd_struct st' k'⌝ -∗ ⌜hd_count st' = hd_count st⌝ -∗ ⌜int' ##ₘ cl⌝ -∗
      hd_tab st' k' es int' -∗ hctl (int' ∪ cl) -∗ Φ st'.

  Lemma shl64_pow k : 0 ≤ k ≤ 60 → shl64 1 k = 2 ^ k.
  Proof.
    intros Hk. pose proof (pow2_small k Hk). rewrite /shl64 Z.shiftl_mul_pow2; [|lia]. rewrite Z.mod_small; lia.
  Qed.

  Lemma fresh_single a b r r' (cl : gmap Z region) :
    ({[b := r]} ∪ cl) !! a = None → {[b := r]} ##ₘ cl →
    ({[a := r']} : gmap Z region) ##ₘ cl ∧
    delete b (<[a := r']> ({[b := r]} ∪ cl)) = {[a := r']} ∪ cl ∧ (<[a := r']> ({[b := r]} ∪ cl)) !! b = Some r.
  Proof.
    intros [Hb Ha]%lookup_union_None Hd. apply map_disjoint_singleton_l in Hd.
    apply lookup_singleton_None in Hb. split; [by apply map_disjoint_singleton_l|].
    split.
    - rewrite delete_insert_ne // delete_union delete_singleton left_id_L delete_notin // insert_union_singleton_l //.
    - rewrite lookup_insert_ne // lookup_union_l // lookup_singleton //.
  Qed.

  Lemma big_sepL_seq_shift (P : nat → iProp) s n :
    ([∗ list] i ∈ seq s n, P i) ⊣⊢ [∗ list] i ∈ seq 0 n, P (s + i)%nat.
  Proof.
    rewrite -{1}(Nat.add_0_r s) -fmap_add_seq big_sepL_fmap //.
  Qed.
  Lemma big_sep3 (P Q R : nat → iProp) l :
    ([∗ list] i ∈ l, P i ∗ Q i ∗ R i) ⊣⊢ ([∗ list] i ∈ l, P i) ∗ ([∗ list] i ∈ l, Q i) ∗ [∗ list] i ∈ l, R i.
  Proof. by rewrite !big_sepL_sep. Qed.
  Lemma seq_double n : seq 0 (n + n) = seq 0 n ++ seq n n.
  Proof. by rewrite seq_app. Qed.

  Lemma wp_hashdyn_grow fuel st k es int cl Φ :
    memG_env → hd_struct st k → k ≤ 59 → (length es ≤ fuel)%nat → int ##ₘ cl →
    hd_tab st k es int -∗ hctl (int ∪ cl) -∗ hd_resized st (k + 1) es cl Φ -∗
    wp (hashdyn_resize fuel st (k + 1)) Φ.
  Proof.
    iIntros (Henv (Hk & Hbit & Hmax & Hmask & Hpos) Hk' Hf Hdis) "(%B & -> & %Hg & HB) Hc HΦ".
    rewrite /hashdyn_resize Hbit Hmax. iApply wp_if_false; [lia|].
    rewrite shl64_pow; [|lia]. rewrite sub64_1; [|lia]. pose proof (pow2_small k ltac:(lia)) as Hp.
    assert (H2 : 2 ^ (k + 1) = 2 ^ k + 2 ^ k) by (rewrite Z.pow_add_r; lia).
    pose proof (pow2_small (k + 1) ltac:(lia)) as Hp2.
    assert (Hw : wrap (2 ^ (k + 1) * 8) = 2 ^ (k + 1) * 8) by (rewrite /wrap Z.mod_small; lia).
    rewrite Hw. wp_bind. rewrite /malloc Z.div_mul //.
    iApply (wp_alloc_region with "Hc"); [done|]. iIntros (a Ha Ham Hab Hal _) "Hc Hcells".
    rewrite region_raw; [|by left].
    assert (H2n : Z.to_nat (2 ^ (k + 1)) = (Z.to_nat (2 ^ k) + Z.to_nat (2 ^ k))%nat) by lia.
    assert (HN : Z.of_nat (Z.to_nat (2 ^ k)) = 2 ^ k) by lia.
    remember (Z.to_nat (2 ^ k)) as N eqn:HNeq in *. rewrite H2n seq_double big_sepL_app (big_sepL_seq_shift _ N).
    iDestruct "Hcells" as "[Hc0 Hc1]".
    wp_bind. iApply wp_if_true; [lia|].
    iApply (wp_hashdyn_grow_loop N fuel (hd_bucket st) a k 0 N B with "[HB Hc0 Hc1]").
    - done.
    - lia.
    - lia.
    - intros j Hj. split; [by eapply good_hashed_B|]. split; [by eapply good_in|].
      etrans; [by eapply good_length|done].
    - iApply big_sep3. iSplitL "HB"; [iExact "HB"|]. iSplitL "Hc0"; [iExact "Hc0"|iExact "Hc1"].
    - iIntros "H". rewrite big_sep3. iDestruct "H" as "(Hb & H0 & H1)".
      destruct (fresh_single a _ _ (RWords (N + N)) cl Hal Hdis) as (Hda & Hdel & Hlk).
      wp_bind. iApply (wp_free _ _ with "Hc [Hb]"); [destruct Hpos; lia|exact Hlk| |].
      { by iApply rawcells_region. }
      iIntros "Hc". rewrite Hdel. wp_ret. iApply ("HΦ" with "[] [] [] [H0 H1] Hc").
      { iPureIntro. rewrite /hd_struct /= H2n. split_and!; try done || lia. apply block_ok_16; [done|done|simpl in Hab |- *; lia]. } { done. } { done. }
      iExists (λ i, part (pslot (k + 1)) (Z.of_nat i) (B (if decide (i < N)%nat then i else (i - N)%nat))). simpl.
      iSplit; [by rewrite H2n|]. iSplit.
      + iPureIntro. eapply (good_part N (pslot k)); [done| | |].
        * intros h _. apply pslot_range. lia.
        * intros i Hi. case_decide; lia.
        * intros h _. pose proof (pslot_range k h ltac:(lia)).
          destruct (pslot_S_cases k h ltac:(lia)) as [->| ->]; case_decide; lia.
      + rewrite H2n /bks seq_double big_sepL_app (big_sepL_seq_shift _ N). iSplitL "H0".
        * iApply (big_sepL_impl with "H0"). iIntros "!>" (i j [-> Hj]%lookup_seq) "H". rewrite decide_True //.
        * iApply (big_sepL_impl with "H1"). iIntros "!>" (i j [-> Hj]%lookup_seq) "H".
          rewrite decide_False; [|lia]. by replace (N + (0 + i) - N)%nat with (0 + i)%nat by lia.
  Qed.

  Lemma wp_hashdyn_shrink fuel st k es int cl Φ :
    memG_env → hd_struct st (k + 1) → 4 ≤ k → int ##ₘ cl →
    hd_tab st (k + 1) es int -∗ hctl (int ∪ cl) -∗ hd_resized st k es cl Φ -∗
    wp (hashdyn_resize fuel st k) Φ.
  Proof.
    iIntros (Henv (Hk & Hbit & Hmax & Hmask & Hpos) Hk' Hdis) "(%B & -> & %Hg & HB) Hc HΦ".
    rewrite /hashdyn_resize Hbit Hmax. iApply wp_if_false; [lia|].
    rewrite shl64_pow; [|lia]. rewrite sub64_1; [|lia]. pose proof (pow2_small k ltac:(lia)) as Hp.
    assert (H2 : 2 ^ (k + 1) = 2 ^ k + 2 ^ k) by (rewrite Z.pow_add_r; lia).
    assert (Hw : wrap (2 ^ k * 8) = 2 ^ k * 8) by (rewrite /wrap Z.mod_small; lia).
    rewrite Hw. wp_bind. rewrite /malloc Z.div_mul //.
    iApply (wp_alloc_region with "Hc"); [done|]. iIntros (a Ha Ham Hab Hal _) "Hc Hcells".
    rewrite region_raw; [|by left].
    assert (H2n : Z.to_nat (2 ^ (k + 1)) = (Z.to_nat (2 ^ k) + Z.to_nat (2 ^ k))%nat) by lia.
    assert (HN : Z.of_nat (Z.to_nat (2 ^ k)) = 2 ^ k) by lia.
    remember (Z.to_nat (2 ^ k)) as N eqn:HNeq in *. rewrite H2n. rewrite H2n in Hg, Hal, Hdis.
    rewrite {1}/bks seq_double big_sepL_app (big_sepL_seq_shift _ N). iDestruct "HB" as "[HB0 HB1]".
    wp_bind. iApply wp_if_false; [lia|].
    iApply (wp_hashdyn_shrink_loop N (hd_bucket st) a k 0 N B with "[HB0 HB1 Hcells]").
    - done.
    - lia.
    - lia.
    - iApply big_sep3. iSplitL "HB0"; [iExact "HB0"|]. iSplitL "HB1"; [iExact "HB1"|iExact "Hcells"].
    - iIntros "H". rewrite big_sep3. iDestruct "H" as "(Hb0 & Hb1 & H)".
      destruct (fresh_single a _ _ (RWords N) cl Hal Hdis) as (Hda & Hdel & Hlk).
      wp_bind. iApply (wp_free _ _ with "Hc [Hb0 Hb1]"); [destruct Hpos; lia|exact Hlk| |].
      { iApply rawcells_region. rewrite seq_double big_sepL_app (big_sepL_seq_shift _ N). iFrame. }
      iIntros "Hc". rewrite Hdel. wp_ret. iApply ("HΦ" with "[] [] [] [H] Hc").
      { iPureIntro. rewrite /hd_struct /= -HNeq. split_and!; try done || lia. apply block_ok_16; [done|done|simpl in Hab |- *; lia]. } { done. } { done. }
      iExists (λ i, B i ++ B (N + i)%nat). simpl. rewrite -HNeq. iSplit; [done|]. iSplit; [|iExact "H"].
      iPureIntro. eapply (good_change (N + N) (pslot (k + 1))); [done| | | |].
      + intros h _. rewrite HNeq; apply pslot_range. lia.
      + intros i Hi. apply Forall_app. split.
        * pose proof (good_in _ _ _ _ Hg i ltac:(lia)) as HF. eapply Forall_impl; [exact HF|].
          intros e He. simpl in He. rewrite (pslot_S k); [|lia]. rewrite He Z.mod_small; lia.
        * pose proof (good_in _ _ _ _ Hg (N + i)%nat ltac:(lia)) as HF. eapply Forall_impl; [exact HF|].
          intros e He. simpl in He. rewrite (pslot_S k); [|lia]. rewrite He.
          replace (Z.of_nat (N + i)) with (Z.of_nat i + 1 * 2 ^ k) by lia. rewrite Z.mod_add; [|lia].
          rewrite Z.mod_small; lia.
      + intros h Hh. rewrite fh_app. pose proof (pslot_range k h ltac:(lia)) as Hr.
        destruct (pslot_S_cases k h ltac:(lia)) as [Heq|Heq]; rewrite Heq.
        * rewrite (fh_none h (B (N + _)%nat)); [by rewrite app_nil_r|].
          eapply Forall_impl; [apply (good_in _ _ _ _ Hg); lia|]. intros e He <-. simpl in He. lia.
        * rewrite (fh_none h (B (Z.to_nat (pslot k h)))); last first.
          { eapply Forall_impl; [apply (good_in _ _ _ _ Hg); lia|]. intros e He <-. simpl in He. lia. }
          simpl. do 2 f_equal. lia.
      + intros i Hi. apply Forall_app. split; apply (good_hashed_B _ _ _ _ Hg); lia.
  Qed.

  Lemma wp_hd_insert fuel st es p d h cl Φ : memG_env → fits fuel (S (length es)) → word h →
    tabR hashdyn_table hd_rep st es cl -∗ freenode p -∗
    (∀ st', tabR hashdyn_table hd_rep st' (es ++ [El p d (W h)]) cl -∗ Φ st') -∗
    wp (hashdyn_insert fuel st p d h) Φ.
  Proof.
    iIntros (Henv [Hf Hsz] Hw) "(%int & %Hdis & (%k & %Hs & %Hl & (%B & %Hint & %Hg & HB)) & Hc) Hp HΦ".
    rewrite /hashdyn_insert.
    iApply (wp_tab_insert with "HB Hp"); [done|done| |].
    { destruct Hs as (?&?&?&Hmask&?). rewrite /hashdyn_ref Hmask. apply vec_pslot. lia. }
    iIntros (B' Hg') "HB". destruct Hl as (Hcount & Hl1 & Hl2).
    pose proof Hs as (Hk & Hbit & Hmax & Hmask & Hpos). pose proof (pow2_small k ltac:(lia)).
    rewrite Hcount. replace (wrap (Z.of_nat (length es) + 1)) with (Z.of_nat (S (length es))) by (rewrite /wrap Z.mod_small; lia).
    set (st1 := hd_set_count st (Z.of_nat (S (length es)))).
    assert (Hs1 : hd_struct st1 k) by done.
    iAssert (hd_tab st1 k (es ++ [El p d (W h)]) int) with "[HB]" as "HB".
    { iExists B'. by iFrame. }
    rewrite /hashdyn_grow_step. rewrite {1}/st1 /= Hmax.
    assert (Hev : 2 ^ k = 2 * 2 ^ (k - 1)).
    { rewrite -{1}(Z.sub_add 1 k) Z.pow_add_r; lia. }
    assert (Hdiv : 2 ^ k / 2 = 2 ^ (k - 1)) by (rewrite Hev Z.mul_comm Z.div_mul //).
    assert (Hlen : length (es ++ [El p d (W h)]) = S (length es)) by (rewrite app_length /=; lia).
    destruct (decide (2 ^ k / 2 ≤ Z.of_nat (S (length es)))) as [Hgrow|Hno].
    - rewrite Hbit.
      assert (k ≤ 59).
      { destruct (decide (k ≤ 59)); [done|]. assert (2 ^ 59 ≤ 2 ^ (k - 1)) by (apply Z.pow_le_mono_r; lia). lia. }
      iApply (wp_hashdyn_grow with "HB Hc"); [done|done|done|lia|done|].
      iIntros (st' int' Hs' Hc' Hd') "HB Hc". iApply "HΦ". iApply (tabR_intro with "[HB] Hc"); [done|].
      iExists (k + 1). iFrame. iPureIntro. split; [done|]. rewrite /hd_load Hlen.
      split; [done|]. rewrite Z.pow_add_r; [|lia..]. split; [lia|]. right. lia.
    - wp_ret. iApply "HΦ". iApply (tabR_intro with "[HB] Hc"); [done|]. iExists k. iFrame. iPureIntro.
      split; [done|]. rewrite /hd_load Hlen. split; [done|]. split; [lia|]. destruct Hl2 as [|]; [by left|right]. lia.
  Qed.

  Lemma wp_hd_shrink_step fuel st k es int cl Φ :
    memG_env → hd_struct st k → int ##ₘ cl →
    hd_count st = Z.of_nat (length es) → 2 * (Z.of_nat (length es) + 1) < 2 ^ k →
    (k = 4 ∨ 2 ^ k < 8 * (Z.of_nat (length es) + 1)) →
    hd_tab st k es int -∗ hctl (int ∪ cl) -∗
    (∀ st', tabR hashdyn_table hd_rep st' es cl -∗ Φ st') -∗
    wp (hashdyn_shrink_step fuel st) Φ.
  Proof.
    iIntros (Henv Hs Hdis Hcount Hl1 Hl2) "HB Hc HΦ".
    pose proof Hs as (Hk & Hbit & Hmax & Hmask & Hpos). pose proof (pow2_small k ltac:(lia)).
    rewrite /hashdyn_shrink_step Hcount Hmax Hbit. rewrite /HASHDYN_BIT.
    assert (Hev : 2 ^ k = 8 * 2 ^ (k - 3)).
    { rewrite -{1}(Z.sub_add 3 k) Z.pow_add_r; lia. }
    assert (Hdiv : 2 ^ k / 8 = 2 ^ (k - 3)) by (rewrite Hev Z.mul_comm Z.div_mul //).
    destruct (decide (Z.of_nat (length es) ≤ 2 ^ k / 8 ∧ 4 < k)) as [[Hc1 Hc2]|Hno].
    - replace k with (k - 1 + 1) by lia. rewrite Z.add_simpl_r.
      replace (k - 1 + 1) with k in Hs by lia.
      iApply (wp_hashdyn_shrink _ _ (k - 1) with "[HB] Hc"); [done| |lia|done| |].
      { by rewrite Z.sub_add. } { by rewrite Z.sub_add. }
      iIntros (st' int' Hs' Hc' Hd') "HB Hc". iApply "HΦ". iApply (tabR_intro with "[HB] Hc"); [done|].
      iExists (k - 1). iFrame. iPureIntro. split; [done|]. split; [congruence|].
      assert (2 ^ (k - 1) = 4 * 2 ^ (k - 3)).
      { replace (k - 1) with (2 + (k - 3)) by lia. rewrite Z.pow_add_r; lia. }
      pose proof (Z.pow_pos_nonneg 2 (k - 3)). split; [lia|]. right. lia.
    - wp_ret. iApply "HΦ". iApply (tabR_intro with "[HB] Hc"); [done|]. iExists k. iFrame. iPureIntro.
      split; [done|]. split; [done|]. split; [lia|]. destruct (decide (k = 4)); [by left|]. right. lia.
  Qed.

  Lemma hd_dec st k (es1 : list elem) e es2 : hd_struct st k → hd_load st k (Z.of_nat (length (es1 ++ e :: es2))) →
    Z.of_nat (length (es1 ++ e :: es2)) < 2 ^ 59 →
    let st1 := hd_set_count st (sub64 (hd_count st) 1) in
    hd_struct st1 k ∧ hd_count st1 = Z.of_nat (length (es1 ++ es2)) ∧
    2 * (Z.of_nat (length (es1 ++ es2)) + 1) < 2 ^ k ∧ (k = 4 ∨ 2 ^ k < 8 * (Z.of_nat (length (es1 ++ es2)) + 1)).
  Proof.
    intros Hs (Hc & H1 & H2) Hl st1. split; [done|]. subst st1. simpl.
    rewrite Hc. rewrite !app_length /= in Hl, H1, H2 |- *. rewrite /sub64 Z.mod_small; [|lia].
    split; [lia|]. split; [lia|]. destruct H2; [by left|right; lia].
  Qed.

  Lemma wp_hd_remove fuel st es ff f arg h cl Φ : memG_env → fits fuel (length es) → word h → ereads ff f arg h es →
    tabR hashdyn_table hd_rep st es cl -∗ t ↦ Tape [] -∗
    ((∀ st' es1 e es2 nx pv, ⌜es = es1 ++ e :: es2⌝ -∗ ⌜eacc f arg h e⌝ -∗
        ⌜Forall (λ e, ¬ eacc f arg h e) es1⌝ -∗ tabR hashdyn_table hd_rep st' (es1 ++ es2) cl -∗ nodeP e nx pv -∗
        t ↦ Tape (ecalls arg h (es1 ++ [e])) -∗ Φ (st', e_d e)) ∧
     (⌜Forall (λ e, ¬ eacc f arg h e) es⌝ -∗ tabR hashdyn_table hd_rep st es cl -∗ t ↦ Tape (ecalls arg h es) -∗ Φ (st, 0))) -∗
    wp (hashdyn_remove fuel st (tape_cmp t (λ _, ff)) arg h) Φ.
  Proof.
    iIntros (Henv [Hf Hsz] Hw Hrd) "(%int & %Hdis & (%k & %Hs & %Hl & (%B & %Hint & %Hg & HB)) & Hc) Ht HΦ".
    rewrite /hashdyn_remove.
    iApply (wp_tab_remove with "HB Ht"); [done|done| |done|done|].
    { destruct Hs as (?&?&?&Hmask&?). rewrite /hashdyn_ref Hmask. apply vec_pslot. lia. }
    iSplit.
    - iIntros (B' es1 e es2 nx pv -> Hacc Hno Hg') "HB (%Hp&Hn&Hv&Hd&Hi) Ht". wp_bind.
      destruct (hd_dec st k es1 e es2 Hs Hl Hsz) as (Hs1 & Hc1 & Hl1 & Hl2).
      iApply (wp_hd_shrink_step with "[HB] Hc"); [done|done|done|done|done|done| |].
      { iExists B'. by iFrame. }
      iIntros (st') "HR". wp_load. wp_ret.
      iDestruct "HΦ" as "[HΦ _]". iApply ("HΦ" with "[//] [//] [//] HR [$Hn $Hv $Hd $Hi //] Ht").
    - iIntros (Hno) "HB Ht". wp_ret. iDestruct "HΦ" as "[_ HΦ]". iApply ("HΦ" with "[//] [HB Hc] Ht").
      iApply (tabR_intro with "[HB] Hc"); [done|]. iExists k. iSplit; [done|]. iSplit; [done|]. iExists B. by iFrame.
  Qed.

  Lemma wp_hd_remove_existing fuel st es1 e es2 cl Φ : memG_env → fits fuel (length (es1 ++ e :: es2)) →
    tabR hashdyn_table hd_rep st (es1 ++ e :: es2) cl -∗
    (∀ st' nx pv, tabR hashdyn_table hd_rep st' (es1 ++ es2) cl -∗ nodeP e nx pv -∗ Φ (st', e_d e)) -∗
    wp (hashdyn_remove_existing fuel st (e_p e)) Φ.
  Proof.
    iIntros (Henv [_ Hsz]) "(%int & %Hdis & (%k & %Hs & %Hl & (%B & %Hint & %Hg & HB)) & Hc) HΦ".
    rewrite /hashdyn_remove_existing. iDestruct (tab_index with "HB") as "[Hi HB]"; first done.
    wp_load. iDestruct ("HB" with "Hi") as "HB". wp_bind.
    iApply (wp_tab_unlink with "HB"); [done| |].
    { destruct Hs as (?&?&?&Hmask&?). rewrite /hashdyn_ref Hmask. apply vec_pslot. lia. }
    iIntros (B' nx pv Hg') "HB (%Hp&Hn&Hv&Hd&Hi)". wp_bind.
    destruct (hd_dec st k es1 e es2 Hs Hl Hsz) as (Hs1 & Hc1 & Hl1 & Hl2).
    iApply (wp_hd_shrink_step with "[HB] Hc"); [done|done|done|done|done|done| |].
    { iExists B'. by iFrame. }
    iIntros (st') "HR". wp_load. wp_ret.
    iApply ("HΦ" with "HR [$Hn $Hv $Hd $Hi //]").
  Qed.

  Lemma wp_hd_search fuel st es ff f arg h int Φ : fits fuel (length es) → word h → ereads ff f arg h es →
    hd_rep st es int -∗ t ↦ Tape [] -∗
    ((∀ es1 e es2, ⌜es = es1 ++ e :: es2⌝ -∗ ⌜eacc f arg h e⌝ -∗
        ⌜Forall (λ e, ¬ eacc f arg h e) es1⌝ -∗ hd_rep st es int -∗
        t ↦ Tape (ecalls arg h (es1 ++ [e])) -∗ Φ (e_d e)) ∧
     (⌜Forall (λ e, ¬ eacc f arg h e) es⌝ -∗ hd_rep st es int -∗ t ↦ Tape (ecalls arg h es) -∗ Φ 0)) -∗
    wp (hashdyn_search fuel st (tape_cmp t (λ _, ff)) arg h) Φ.
  Proof.
    iIntros ([Hf Hsz] Hw Hrd) "(%k & %Hs & %Hl & (%B & %Hint & %Hg & HB)) Ht HΦ".
    rewrite /hashdyn_search /hashdyn_bucket.
    iApply (wp_tab_search with "HB Ht"); [done|done| |done|done|].
    { destruct Hs as (?&?&?&Hmask&?). rewrite /hashdyn_ref Hmask. apply vec_pslot. lia. }
    iSplit.
    - iIntros (es1 e es2 -> Hacc Hno) "HB Ht".
      iDestruct "HΦ" as "[HΦ _]". iApply ("HΦ" with "[//] [//] [//] [HB] Ht").
      iExists k. iSplit; [done|]. iSplit; [done|]. iExists B. by iFrame.
    - iIntros (Hno) "HB Ht". iDestruct "HΦ" as "[_ HΦ]". iApply ("HΦ" with "[//] [HB] Ht").
      iExists k. iSplit; [done|]. iSplit; [done|]. iExists B. by iFrame.
  Qed.

  Lemma wp_hd_bucket st es h int Φ : word h →
    hd_rep st es int -∗
    (∀ b pv, ⌜b ⊆+ es⌝ -∗ ⌜fh h b = fh h es⌝ -∗ dseg b pv 0 -∗ (dseg b pv 0 -∗ hd_rep st es int) -∗ Φ (hd_p b 0)) -∗
    wp (hashdyn_bucket st h) Φ.
  Proof.
    iIntros (Hw) "(%k & %Hs & %Hl & (%B & %Hint & %Hg & HB)) HΦ". rewrite /hashdyn_bucket.
    iApply (wp_tab_bucket with "HB"); [done|done| |].
    { destruct Hs as (?&?&?&Hmask&?). rewrite /hashdyn_ref Hmask. apply vec_pslot. lia. }
    iIntros (b pv Hb Hfh) "Hd HB". iApply ("HΦ" with "[//] [//] Hd"). iIntros "Hd".
    iDestruct ("HB" with "Hd") as "HB". iExists k. iSplit; [done|]. iSplit; [done|]. iExists B. by iFrame.
  Qed.

  Lemma wp_hd_foreach_ro fuel st es int func (I : list elem → iProp) Φ : fits fuel (length es) →
    □ (∀ dn x, I dn -∗ wp (func (e_d x)) (λ _, I (dn ++ [x]))) -∗
    hd_rep st es int -∗ I [] -∗ (∀ es', ⌜es' ≡ₚ es⌝ -∗ hd_rep st es int -∗ I es' -∗ Φ tt) -∗
    wp (hashdyn_foreach fuel st func) Φ.
  Proof.
    iIntros ([Hf Hsz]) "#Hfunc (%k & %Hs & %Hl & (%B & %Hint & %Hg & HB)) HI HΦ". rewrite /hashdyn_foreach.
    pose proof Hs as (Hk & _ & -> & _). pose proof (pow2_small k ltac:(lia)).
    iApply (wp_tab_foreach_ro _ _ _ fuel with "Hfunc HB HI"); [done|lia|done| |].
    { iIntros (i Ψ Hi) "H". wp_ret. done. }
    iIntros (es' Hp) "HB HI". iApply ("HΦ" with "[//] [HB] HI").
    iExists k. iSplit; [done|]. iSplit; [done|]. iExists B. by iFrame.
  Qed.

  Lemma wp_hd_foreach fuel st es int func (I : list elem → iProp) Φ : fits fuel (length es) →
    □ (∀ dn x more nx pv, ⌜dn ++ x :: more ≡ₚ es⌝ -∗ I dn -∗ nodeP x nx pv -∗ wp (func (e_d x)) (λ _, I (dn ++ [x]))) -∗
    hd_rep st es int -∗ I [] -∗ (∀ es', ⌜es' ≡ₚ es⌝ -∗ hd_shell st int -∗ I es' -∗ Φ tt) -∗
    wp (hashdyn_foreach fuel st func) Φ.
  Proof.
    iIntros ([Hf Hsz]) "#Hfunc (%k & %Hs & %Hl & (%B & %Hint & %Hg & HB)) HI HΦ". rewrite /hashdyn_foreach.
    pose proof Hs as (Hk & _ & -> & _ & ?). pose proof (pow2_small k ltac:(lia)).
    iApply (wp_tab_foreach _ _ _ fuel with "Hfunc HB HI"); [done|lia|done| |].
    { iIntros (i Ψ Hi) "H". wp_ret. done. }
    iIntros (es' Hp) "HB HI". iApply ("HΦ" with "[//] [HB] HI"). iExists _. by iFrame.
  Qed.

  Lemma hd_visits st es int m : hd_rep st es int -∗ memI m -∗ ⌜visits hashdyn_table st (en <$> es) int m⌝.
  Proof.
    iIntros "(%k & %Hs & %Hl & (%B & -> & %Hg & HB)) Hm". pose proof Hs as (Hk & _ & Hmax & _).
    pose proof (pow2_small k ltac:(lia)).
    iApply (bks_visits _ _ _ hashdyn_table st es B _ (λ pos, (mret (hashdyn_ref st pos) : M Z)) with "HB Hm"); [exact Hg|lia|done| |].
    - intros i Hi. by apply vec_cells.
    - intros fuel func. by rewrite /= /hashdyn_foreach Hmax.
  Qed.

  Lemma hd_chains st es int m : hd_rep st es int -∗ memI m -∗ ⌜chains hashdyn_table st (en <$> es) m⌝.
  Proof.
    iIntros "(%k & %Hs & %Hl & (%B & -> & %Hg & HB)) Hm". pose proof Hs as (Hk & _ & Hmax & Hmask & _).
    iApply (bks_chains _ _ _ hashdyn_table st es B with "HB Hm"); [exact Hg| |].
    - intros h _. by rewrite /= Hmax.
    - intros h v _ Hv. rewrite /= /hashdyn_bucket /hashdyn_ref Hmask vec_pslot; [|lia]. by rewrite /load Hv.
  Qed.

  Lemma hd_blocks st int : hd_shell st int ⊢ blocks_own int.
  Proof.
    iIntros "(%n & %Hb & -> & HB)". rewrite /blocks_own big_sepM_singleton. iSplit; [done|]. by iApply rawcells_region.
  Qed.

  Lemma hd_memory st es int : hd_rep st es int ⊢
    ⌜hashdyn_memory_usage st = wrap (heap_bytes int + 32 * Z.of_nat (length es))⌝.
  Proof.
    iIntros "(%k & %Hs & %Hl & (%B & -> & %Hg & HB))". iPureIntro. destruct Hs as (Hk & _ & Hmax & _).
    destruct Hl as [Hc _]. pose proof (pow2_small k ltac:(lia)).
    rewrite heap_bytes_singleton /hashdyn_memory_usage Hmax /hashdyn_count Hc /wrap -Zplus_mod.
    f_equal. simpl. lia.
  Qed.

  Definition hd_proof : memG_env → table_proof hashdyn_table hashdyn_inv t.
  Proof.
    intros Henv. refine (TableProof hashdyn_table hashdyn_inv _ t hd_rep hd_shell hd_shell_of hd_rep_inv _ wp_hd_done
      _ _ _ wp_hd_search wp_hd_bucket wp_hd_foreach_ro wp_hd_foreach _
      hd_visits hd_chains hd_blocks hd_memory).
    - intros. by apply wp_hd_init.
    - intros. by apply wp_hd_insert.
    - intros. by apply wp_hd_remove.
    - intros. by apply wp_hd_remove_existing.
    - done.
  Defined.
End hashdyn.

Lemma hashdyn_history om K t live m fuel c :
  table_start om K t live m → (size om ≤ fuel)%nat →
  allowed (tpre om K) tpost (tstate0 om live) c →
  safe (run (tstep hashdyn_table fuel t) None c m) (λ r m',
    table_end hashdyn_table hashdyn_inv om live r.1 r.2 m' ∧ unchanged_outside (HCTL :: t :: objs_cells om) m m').
Proof. apply table_history. intros. by apply hd_proof. Qed.
