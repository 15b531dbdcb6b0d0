(** * The linear hashtable: segments and slots *)
From Verif Require Export HashDynProof.
Global Open Scope Z_scope.
Local Typeclasses Transparent nodeP freenode freenode_i lst.

(** ** Segments *)

(** The segment 0 has the positions below 64, the segment [S i] those from
    2^(6+i) to 2^(7+i). *)
Definition segsize (i : nat) : nat :=
  match i with O => 64%nat | S i => Z.to_nat (2 ^ (6 + Z.of_nat i)) end.

(** Address of the bucket at [pos], [sg] being the segments. *)
Definition haddr (sg : nat → Z) (pos : nat) : Z :=
  let p := Z.of_nat pos in
  if decide (p < 64) then sg 0%nat + 8 * p
  else sg (Z.to_nat (Z.log2 p - 5)) + 8 * (p - 2 ^ Z.log2 p).

Definition segmap (sg : nat → Z) (s n : nat) : gmap Z region :=
  list_to_map ((λ i, (sg i, RWords (segsize i))) <$> seq s n).

Definition pw (j : nat) : Z := 2 ^ (6 + Z.of_nat j).

Lemma pw_S j : pw (S j) = 2 * pw j.
Proof. rewrite /pw. replace (6 + Z.of_nat (S j)) with (1 + (6 + Z.of_nat j)) by lia. rewrite Z.pow_add_r; lia. Qed.
Lemma pw_0 : pw 0 = 64. Proof. done. Qed.
Lemma pw_ge j : 64 ≤ pw j.
Proof. change 64 with (2 ^ 6). apply Z.pow_le_mono_r; lia. Qed.
Lemma pw_le j : (j ≤ 54)%nat → pw j ≤ 2 ^ 60.
Proof. intros. apply Z.pow_le_mono_r; lia. Qed.
Lemma pw_mono i j : (i ≤ j)%nat → pw i ≤ pw j.
Proof. intros. apply Z.pow_le_mono_r; lia. Qed.
Lemma pw_8 j : pw j mod 8 = 0.
Proof. rewrite /pw. replace (6 + Z.of_nat j) with (3 + (3 + Z.of_nat j)) by lia. rewrite Z.pow_add_r; [|lia..].
  rewrite Z.mul_comm. by apply Z.mod_mul. Qed.

Lemma haddr_low sg pos : (pos < 64)%nat → haddr sg pos = sg 0%nat + 8 * Z.of_nat pos.
Proof. intros. rewrite /haddr decide_True //. lia. Qed.
Lemma haddr_seg sg i q : (q < Z.to_nat (pw i))%nat →
  haddr sg (Z.to_nat (pw i) + q) = sg (S i) + 8 * Z.of_nat q.
Proof.
  intros Hq. pose proof (pw_ge i). rewrite /haddr decide_False; [|lia].
  rewrite Nat2Z.inj_add Z2Nat.id; [|lia].
  assert (Hl : Z.log2 (pw i + Z.of_nat q) = 6 + Z.of_nat i).
  { apply Z.log2_unique; [lia|]. rewrite -Z.add_1_r (Z.pow_add_r _ _ 1); [|lia..]. rewrite -/(pw i). lia. }
  rewrite Hl. replace (Z.to_nat (6 + Z.of_nat i - 5)) with (S i) by lia. rewrite /pw. lia.
Qed.
Lemma haddr_inv pos j : Z.of_nat pos < pw j →
  (pos < 64)%nat ∨ ∃ i q, (i < j)%nat ∧ (q < Z.to_nat (pw i))%nat ∧ pos = (Z.to_nat (pw i) + q)%nat.
Proof.
  intros Hp. destruct (decide (pos < 64)%nat) as [|H64]; [by left|right].
  induction j as [|j IH]; [rewrite pw_0 in Hp; lia|].
  destruct (decide (Z.of_nat pos < pw j)) as [Hj|Hj].
  - destruct (IH Hj) as (i & q & ? & ? & ?). exists i, q. split; [lia|done].
  - rewrite pw_S in Hp. pose proof (pw_ge j). exists j, (pos - Z.to_nat (pw j))%nat. lia.
Qed.
Lemma haddr_ext sg sg' pos j : Z.of_nat pos < pw j → (∀ i, (i ≤ j)%nat → sg i = sg' i) → haddr sg pos = haddr sg' pos.
Proof.
  intros Hp Hs. destruct (haddr_inv pos j Hp) as [|(i & q & Hi & Hq & ->)].
  - rewrite !haddr_low // Hs //. lia.
  - rewrite !haddr_seg // Hs //.
Qed.

Lemma segmap_lookup sg s n i : (s ≤ i < s + n)%nat →
  (∀ a b, (s ≤ a < s + n)%nat → (s ≤ b < s + n)%nat → sg a = sg b → a = b) →
  segmap sg s n !! sg i = Some (RWords (segsize i)).
Proof.
  intros Hi Hinj. apply elem_of_list_to_map_1.
  - rewrite -list_fmap_compose. apply NoDup_fmap_2_strong; [|apply NoDup_seq].
    intros a b Ha%elem_of_seq Hb%elem_of_seq. simpl. auto.
  - apply elem_of_list_fmap. exists i. split; [done|]. apply elem_of_seq. lia.
Qed.
Lemma segmap_None sg s n a : (∀ i, (s ≤ i < s + n)%nat → sg i ≠ a) ↔ segmap sg s n !! a = None.
Proof.
  rewrite /segmap. split.
  - intros Ha. apply not_elem_of_list_to_map_1. rewrite -list_fmap_compose.
    intros (i & Hia & Hi%elem_of_seq)%elem_of_list_fmap. by apply (Ha i).
  - intros Hn i Hi He. apply not_elem_of_list_to_map_2 in Hn. apply Hn. rewrite -list_fmap_compose.
    apply elem_of_list_fmap. exists i. split; [done|]. apply elem_of_seq. lia.
Qed.
Lemma segmap_cons sg s n : segmap sg s (S n) = <[sg s := RWords (segsize s)]> (segmap sg (S s) n).
Proof. done. Qed.
Lemma segmap_snoc sg s n : segmap sg s n !! sg (s + n)%nat = None →
  segmap sg s (S n) = <[sg (s + n)%nat := RWords (segsize (s + n))]> (segmap sg s n).
Proof.
  intros Hn. rewrite {1}/segmap seq_S fmap_app. simpl. apply list_to_map_snoc.
  rewrite -list_fmap_compose. apply not_elem_of_list_to_map_2 in Hn. by rewrite -list_fmap_compose in Hn.
Qed.
Lemma segmap_ext sg sg' s n : (∀ i, (s ≤ i < s + n)%nat → sg i = sg' i) → segmap sg s n = segmap sg' s n.
Proof.
  intros Hs. rewrite /segmap. f_equal. apply list_fmap_ext. intros i k [-> Hk]%lookup_seq. rewrite Hs //. lia.
Qed.

(** ** The array of segments of the struct *)
Record hl_phys (t : hashlin) (j : nat) (sg : nat → Z) : Prop := HlPhys {
  hp_len : length (hl_bucket t) = 64%nat;
  hp_j : (j ≤ 54)%nat;
  hp_0 : ∀ i, (i < 6)%nat → hl_bucket t !! i = Some (Some (sg 0%nat));
  hp_S : ∀ i, (i < j)%nat → hl_bucket t !! (6 + i)%nat = Some (Some (wrap (sg (S i) - 8 * pw i)));
  hp_pos : ∀ i, (i ≤ j)%nat → 0 < sg i ∧ sg i + 8 * Z.of_nat (segsize i) < 2 ^ 64;
  hp_inj : ∀ a b, (a ≤ j)%nat → (b ≤ j)%nat → sg a = sg b → a = b;
  hp_al : ∀ i, (i ≤ j)%nat → sg i mod 16 = 0 }.

Lemma seg_ref_adj s k c : 0 ≤ s + 8 * (k - c) < 2 ^ 64 → seg_ref (wrap (s - 8 * c)) k = s + 8 * (k - c).
Proof.
  intros H. rewrite /seg_ref /wrap Zplus_mod_idemp_l. replace (s - 8 * c + 8 * k) with (s + 8 * (k - c)) by lia.
  by apply Z.mod_small.
Qed.

Lemma hl_phys_fields t t' j sg : hl_bucket t' = hl_bucket t → hl_phys t j sg → hl_phys t' j sg.
Proof. intros Hb [H1 H2 H3 H4 H5 H6 H7]. split; rewrite ?Hb //. Qed.

Lemma hashlin_pos_ok t j sg (pos : nat) m :
  hl_phys t j sg → Z.of_nat pos < pw j → hashlin_pos t (Z.of_nat pos) m = Ok (haddr sg pos) m.
Proof.
  intros Hph Hp.
  pose proof (hp_j _ _ _ Hph) as Hj. pose proof (pw_le j Hj).
  assert (Hlog : Z.log2 (Z.lor (Z.of_nat pos) 1) = Z.log2 (Z.of_nat pos)).
  { rewrite Z.log2_lor; [|lia..]. change (Z.log2 1) with 0. pose proof (Z.log2_nonneg (Z.of_nat pos)). lia. }
  assert (Hlt : Z.lor (Z.of_nat pos) 1 < 2 ^ 64).
  { destruct (decide (pos = 0%nat)) as [->|]; [done|]. apply Z.log2_lt_pow2.
    - assert (0 ≤ Z.lor (Z.of_nat pos) 1) by (apply Z.lor_nonneg; lia).
      assert (Z.lor (Z.of_nat pos) 1 ≠ 0) by (rewrite Z.lor_eq_0_iff; lia). lia.
    - rewrite Hlog. apply Z.log2_lt_pow2; lia. }
  assert (Hgt : 0 < Z.lor (Z.of_nat pos) 1).
  { assert (0 ≤ Z.lor (Z.of_nat pos) 1) by (apply Z.lor_nonneg; lia).
    assert (Z.lor (Z.of_nat pos) 1 ≠ 0) by (rewrite Z.lor_eq_0_iff; lia). lia. }
  rewrite /hashlin_pos /mbind /M_bind /ilog2 decide_False; [|lia]. cbn [mret M_ret].
  rewrite ilog2_u64_gnuc_ok; [|lia]. rewrite Hlog.
  assert (Hget : ∀ i p, 0 ≤ i < 64 → hl_bucket t !! Z.to_nat i = Some (Some p) → hl_get t i m = Ok p m).
  { intros i p Hi Hl. by rewrite /hl_get decide_True // Hl. }
  destruct (haddr_inv pos j Hp) as [H64|(i & q & Hi & Hq & Heq)].
  - assert (Hl5 : Z.log2 (Z.of_nat pos) < 6).
    { destruct (decide (pos = 0%nat)) as [->|]; [done|]. apply Z.log2_lt_pow2; lia. }
    pose proof (Z.log2_nonneg (Z.of_nat pos)).
    rewrite (Hget _ (sg 0%nat)); [|lia|apply (hp_0 _ _ _ Hph); lia].
    rewrite haddr_low // /seg_ref /wrap. destruct (hp_pos _ _ _ Hph 0%nat ltac:(lia)) as [Hq0 Hq1].
    simpl in Hq1. rewrite Z.mod_small //. lia.
  - subst pos. pose proof (pw_ge i). rewrite Nat2Z.inj_add Z2Nat.id in Hlog |- *; [|lia..].
    assert (Hl : Z.log2 (pw i + Z.of_nat q) = 6 + Z.of_nat i).
    { apply Z.log2_unique; [lia|]. rewrite -Z.add_1_r (Z.pow_add_r _ _ 1); [|lia..]. rewrite -/(pw i). lia. }
    rewrite Hl.
    rewrite (Hget _ (wrap (sg (S i) - 8 * pw i))); [|lia|].
    2:{ replace (Z.to_nat (6 + Z.of_nat i)) with (6 + i)%nat by lia. by apply (hp_S _ _ _ Hph). }
    rewrite haddr_seg //. destruct (hp_pos _ _ _ Hph (S i) ltac:(lia)) as [Hq0 Hq1].
    cbn [segsize] in Hq1. rewrite -/(pw i) in Hq1. rewrite seg_ref_adj; [|lia].
    by replace (pw i + Z.of_nat q - pw i) with (Z.of_nat q) by lia.
Qed.

Section pos.
  Context `{!memG}.

  Lemma wp_hl_get t i p Φ : 0 ≤ i < 64 → hl_bucket t !! Z.to_nat i = Some (Some p) →
    Φ p ⊢ wp (hl_get t i) Φ.
  Proof. iIntros (Hi Hp) "H". rewrite /hl_get. iApply wp_if_true; [done|]. rewrite Hp. wp_ret. done. Qed.

  Lemma wp_ilog2 v Φ : 0 < v < 2 ^ 64 → Φ (Z.log2 v) ⊢ wp (ilog2 v) Φ.
  Proof. iIntros (Hv) "H". rewrite /ilog2. iApply wp_if_false; [lia|]. wp_ret. rewrite ilog2_u64_gnuc_ok //. Qed.

  Lemma wp_hashlin_pos t j sg (pos : nat) p Φ :
    hl_phys t j sg → p = Z.of_nat pos → Z.of_nat pos < pw j →
    Φ (haddr sg pos) ⊢ wp (hashlin_pos t p) Φ.
  Proof.
    iIntros (Hph -> Hp) "HΦ". rewrite wp_unseal. iIntros (m) "Hm". erewrite hashlin_pos_ok by done. by iFrame.
  Qed.

  (** The cells of all the positions are the cells of the segments. *)
  Lemma seg_cells sg j :
    ([∗ list] i ∈ seq 0 (Z.to_nat (pw j)), rawcell (haddr sg i)) ⊣⊢
    [∗ list] i ∈ seq 0 (S j), [∗ list] q ∈ seq 0 (segsize i), rawcell (sg i + 8 * Z.of_nat q).
  Proof.
    induction j as [|j IH].
    - rewrite pw_0. cbn [seq]. rewrite big_sepL_singleton. change (Z.to_nat 64) with 64%nat.
      apply big_sepL_proper. intros k i [-> Hi]%lookup_seq. rewrite haddr_low //; lia.
    - rewrite seq_S big_sepL_app -IH big_sepL_singleton. cbn [segsize Nat.add]. rewrite -/(pw j).
      pose proof (pw_ge j). assert (Z.to_nat (pw (S j)) = (Z.to_nat (pw j) + Z.to_nat (pw j))%nat) as -> by (rewrite pw_S; lia).
      rewrite seq_app big_sepL_app. f_equiv. rewrite big_sepL_seq_shift. cbn [Nat.add].
      apply big_sepL_proper. intros k i [-> Hi]%lookup_seq. rewrite big_sepL_seq_shift || idtac. rewrite haddr_seg //; lia.
  Qed.
End pos.

(** ** Slots *)
Definition hslot (low bm split h : Z) : Z := if decide (h mod low < split) then h mod bm else h mod low.

Lemma hslot_0 low bm h : 0 < low → hslot low bm 0 h = h mod low.
Proof. intros. rewrite /hslot decide_False //. pose proof (Z.mod_pos_bound h low). lia. Qed.
Lemma hslot_full low bm h : 0 < low → hslot low bm low h = h mod bm.
Proof. intros. rewrite /hslot decide_True //. pose proof (Z.mod_pos_bound h low). lia. Qed.
Lemma mod_double low h : 0 < low → h mod (2 * low) = h mod low ∨ h mod (2 * low) = h mod low + low.
Proof.
  intros Hl. pose proof (Z.mod_pos_bound h (2 * low) ltac:(lia)).
  assert (Hm : h mod low = (h mod (2 * low)) mod low).
  { rewrite (Z.mul_comm 2 low) Z.rem_mul_r; [|lia|lia].
    rewrite (Z.mul_comm low) Z.mod_add; [|lia]. rewrite Z.mod_mod; lia. }
  rewrite Hm. destruct (decide (h mod (2 * low) < low)).
  - left. rewrite (Z.mod_small _ low); lia.
  - right. rewrite -(Z.mod_add _ (-1) low) ?(Z.mod_small (_ + _)); lia.
Qed.
Lemma hslot_range low split h : 0 < low → 0 ≤ split ≤ low → 0 ≤ hslot low (2 * low) split h < low + split.
Proof.
  intros Hl Hs. rewrite /hslot. pose proof (Z.mod_pos_bound h low Hl). case_decide; [|lia].
  pose proof (Z.mod_pos_bound h low Hl). destruct (mod_double low h Hl); lia.
Qed.

Lemma good_slot_ext n slot slot' es B : (∀ h, slot h = slot' h) → good n slot es B → good n slot' es B.
Proof.
  intros Hs [H1 H2 H3 H4 H5]. split; [| | |done|done].
  - intros h Hh. rewrite -Hs. auto.
  - intros i Hi. specialize (H2 i Hi). eapply Forall_impl; [exact H2|]. intros e He. simpl. rewrite -Hs //.
  - intros h Hh. rewrite -Hs. auto.
Qed.

(** One bucket divided in two. *)
Lemma good_divide low split es B :
  0 < low → 0 ≤ split < low →
  let n := Z.to_nat (low + split) in
  let L := B (Z.to_nat split) in
  let s2 := λ h, h mod (2 * low) in
  good n (hslot low (2 * low) split) es B →
  good (S n) (hslot low (2 * low) (split + 1)) es
    (upd (upd B (Z.to_nat split) (part s2 split L)) n (part s2 (low + split) L)).
Proof.
  intros Hl Hs n L s2 Hg.
  assert (Hin : Forall (λ e, e_h e mod low = split) L).
  { pose proof (good_in _ _ _ _ Hg (Z.to_nat split) ltac:(lia)) as HF. eapply Forall_impl; [exact HF|].
    intros e He. simpl in He. rewrite /hslot in He. case_decide; [|lia].
    pose proof (Z.mod_pos_bound (e_h e) low Hl). destruct (mod_double low (e_h e) Hl); lia. }
  assert (Hsame : ∀ h, h mod low ≠ split → hslot low (2 * low) (split + 1) h = hslot low (2 * low) split h).
  { intros h Hh. rewrite /hslot. repeat case_decide; (done || lia). }
  assert (Hdiff : ∀ h, h mod low = split → hslot low (2 * low) (split + 1) h = h mod (2 * low) ∧ hslot low (2 * low) split h = split).
  { intros h Hh. rewrite /hslot. split; case_decide; (done || lia). }
  eapply good_change; [exact Hg| | | |].
  - intros h Hh. pose proof (hslot_range low (split + 1) h Hl ltac:(lia)). lia.
  - intros i Hi. destruct (decide (i = n)) as [->|Hn]; [rewrite upd_eq|rewrite upd_ne //].
    { apply Forall_forall. intros e [He1 He2]%elem_of_list_filter. rewrite Forall_forall in Hin.
      destruct (Hdiff _ (Hin e He2)) as [-> _]. rewrite /s2 in He1. lia. }
    destruct (decide (i = Z.to_nat split)) as [->|Hn2]; [rewrite upd_eq|rewrite upd_ne //].
    { apply Forall_forall. intros e [He1 He2]%elem_of_list_filter. rewrite Forall_forall in Hin.
      destruct (Hdiff _ (Hin e He2)) as [-> _]. rewrite /s2 in He1. lia. }
    pose proof (good_in _ _ _ _ Hg i ltac:(lia)) as HF. eapply Forall_impl; [exact HF|].
    intros e He. simpl in He. rewrite Hsame //. intros Hh. destruct (Hdiff _ Hh). lia.
  - intros h Hh. destruct (decide (h mod low = split)) as [He|He].
    + destruct (Hdiff h He) as [-> ->]. pose proof (Z.mod_pos_bound h low Hl). destruct (mod_double low h Hl) as [H2|H2].
      * rewrite upd_ne; [|lia]. rewrite H2 He upd_eq. trans (fh h (part s2 (s2 h) L)); [|apply part_fh]. rewrite /s2 H2 He //.
      * assert (Hn : Z.to_nat (h mod (2 * low)) = n) by lia. rewrite Hn upd_eq.
        trans (fh h (part s2 (s2 h) L)); [|apply part_fh]. rewrite /s2. do 2 f_equal. lia.
    + rewrite Hsame //. pose proof (hslot_range low split h Hl ltac:(lia)).
      assert (hslot low (2 * low) split h ≠ split).
      { rewrite /hslot. case_decide; [|done]. pose proof (Z.mod_pos_bound h low Hl). destruct (mod_double low h Hl); lia. }
      rewrite upd_ne; [|lia]. rewrite upd_ne //. lia.
  - intros i Hi. assert (HL : Forall hashed L) by (apply (good_hashed_B _ _ _ _ Hg); lia).
    destruct (decide (i = n)) as [->|Hn]; [rewrite upd_eq; by apply part_hashed|rewrite upd_ne //].
    destruct (decide (i = Z.to_nat split)) as [->|Hn2]; [rewrite upd_eq; by apply part_hashed|rewrite upd_ne //].
    apply (good_hashed_B _ _ _ _ Hg). lia.
Qed.

(** Two buckets joined in one. *)
Lemma good_join low split es B :
  0 < low → 0 ≤ split < low →
  let n := Z.to_nat (low + split) in
  good (S n) (hslot low (2 * low) (split + 1)) es B →
  good n (hslot low (2 * low) split) es (upd B (Z.to_nat split) (B (Z.to_nat split) ++ B n)).
Proof.
  intros Hl Hs n Hg.
  assert (Hsame : ∀ h, h mod low ≠ split → hslot low (2 * low) (split + 1) h = hslot low (2 * low) split h).
  { intros h Hh. rewrite /hslot. repeat case_decide; (done || lia). }
  assert (Hdiff : ∀ h, h mod low = split → hslot low (2 * low) (split + 1) h = h mod (2 * low) ∧ hslot low (2 * low) split h = split).
  { intros h Hh. rewrite /hslot. split; case_decide; (done || lia). }
  assert (Hne : ∀ h, h mod low ≠ split → hslot low (2 * low) (split + 1) h ≠ split ∧ hslot low (2 * low) (split + 1) h ≠ low + split).
  { intros h Hh. rewrite Hsame //. pose proof (hslot_range low split h Hl ltac:(lia)). split; [|lia].
    rewrite /hslot. case_decide; [|done]. pose proof (Z.mod_pos_bound h low Hl). destruct (mod_double low h Hl); lia. }
  eapply good_change; [exact Hg| | | |].
  - intros h Hh. pose proof (hslot_range low split h Hl ltac:(lia)). lia.
  - intros i Hi. destruct (decide (i = Z.to_nat split)) as [->|Hn2]; [rewrite upd_eq|rewrite upd_ne //].
    + apply Forall_app. split.
      * pose proof (good_in _ _ _ _ Hg (Z.to_nat split) ltac:(lia)) as HF. eapply Forall_impl; [exact HF|].
        intros e He. simpl in He. destruct (decide (e_h e mod low = split)) as [Hh|Hh].
        -- destruct (Hdiff _ Hh) as [_ ->]. lia.
        -- destruct (Hne _ Hh). lia.
      * pose proof (good_in _ _ _ _ Hg n ltac:(lia)) as HF. eapply Forall_impl; [exact HF|].
        intros e He. simpl in He. destruct (decide (e_h e mod low = split)) as [Hh|Hh].
        -- destruct (Hdiff _ Hh) as [_ ->]. lia.
        -- destruct (Hne _ Hh). lia.
    + pose proof (good_in _ _ _ _ Hg i ltac:(lia)) as HF. eapply Forall_impl; [exact HF|].
      intros e He. simpl in He. rewrite -Hsame //. intros Hh. destruct (Hdiff _ Hh) as [Hd _].
      pose proof (Z.mod_pos_bound (e_h e) low Hl). destruct (mod_double low (e_h e) Hl); lia.
  - intros h Hh. destruct (decide (h mod low = split)) as [He|He].
    + destruct (Hdiff h He) as [Hd ->]. rewrite upd_eq fh_app Hd. pose proof (Z.mod_pos_bound h low Hl). destruct (mod_double low h Hl) as [H2|H2].
      * rewrite (fh_none h (B n)); [rewrite app_nil_r H2 He //|].
        eapply Forall_impl; [apply (good_in _ _ _ _ Hg); lia|]. intros e He'. simpl in He'. intros <-. lia.
      * rewrite (fh_none h (B (Z.to_nat split))); last first.
        { eapply Forall_impl; [apply (good_in _ _ _ _ Hg); lia|]. intros e He'. simpl in He'. intros <-. lia. }
        simpl. do 2 f_equal. lia.
    + rewrite upd_ne; [rewrite Hsame //|]. rewrite -Hsame //. destruct (Hne h He).
      pose proof (hslot_range low (split + 1) h Hl ltac:(lia)). lia.
  - intros i Hi. destruct (decide (i = Z.to_nat split)) as [->|Hn2]; [rewrite upd_eq|rewrite upd_ne //].
    + apply Forall_app. split; apply (good_hashed_B _ _ _ _ Hg); lia.
    + apply (good_hashed_B _ _ _ _ Hg). lia.
Qed.
