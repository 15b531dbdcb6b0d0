(** * Segments: proofs for tommy_array and tommy_arrayof *)
From Verif Require Export ArrayHist HashLinBase.
Global Open Scope Z_scope.

(** ** Elements laid out in blocks *)

Section layout.
  Variable w : bool.
  Variable kk : nat.
  Notation n8 := (stride w kk).

  (** Addresses of the elements of the blocks [bs], each one given by its
      address and its number of elements. *)
  Definition layout (bs : list (Z * nat)) : list Z :=
    bs ≫= λ p, (λ q : nat, p.1 + n8 * Z.of_nat q) <$> seq 0 p.2.
  Definition blkmap (bs : list (Z * nat)) : gmap Z region :=
    list_to_map ((λ p, (p.1, mkreg w kk p.2)) <$> bs).

  Lemma blkmap_fst (bs : list (Z * nat)) : ((λ p, (p.1, mkreg w kk p.2)) <$> bs).*1 = bs.*1.
  Proof. rewrite -list_fmap_compose. by apply list_fmap_ext. Qed.

  Lemma blkmap_lookup bs p : NoDup bs.*1 → p ∈ bs → blkmap bs !! p.1 = Some (mkreg w kk p.2).
  Proof.
    intros Hnd Hp. apply elem_of_list_to_map_1; [by rewrite blkmap_fst|].
    apply elem_of_list_fmap. by exists p.
  Qed.
  Lemma blkmap_None bs a : blkmap bs !! a = None ↔ a ∉ bs.*1.
  Proof. rewrite /blkmap -not_elem_of_list_to_map blkmap_fst //. Qed.
  Lemma blkmap_snoc bs p : p.1 ∉ bs.*1 → blkmap (bs ++ [p]) = <[p.1 := mkreg w kk p.2]> (blkmap bs).
  Proof.
    intros Hp. rewrite /blkmap fmap_app /=. apply list_to_map_snoc. by rewrite blkmap_fst.
  Qed.
  Lemma blkmap_cons bs p : blkmap (p :: bs) = <[p.1 := mkreg w kk p.2]> (blkmap bs).
  Proof. done. Qed.

  Lemma layout_length bs : length (layout bs) = sum_list (bs.*2).
  Proof.
    induction bs as [|p bs IH]; [done|]. rewrite /layout bind_cons app_length fmap_length seq_length.
    csimpl. by rewrite -IH.
  Qed.
  Lemma layout_app bs bs' : layout (bs ++ bs') = layout bs ++ layout bs'.
  Proof. apply bind_app. Qed.
  Lemma layout_single p : layout [p] = (λ q : nat, p.1 + n8 * Z.of_nat q) <$> seq 0 p.2.
  Proof. rewrite /layout /=. by rewrite right_id_L. Qed.

  Lemma layout_bytes bs : NoDup bs.*1 → heap_bytes (blkmap bs) = n8 * Z.of_nat (length (layout bs)).
  Proof.
    rewrite layout_length. induction bs as [|p bs IH]; csimpl; intros Hnd.
    - rewrite /blkmap heap_bytes_empty /=. lia.
    - apply NoDup_cons in Hnd as [Hp Hnd]. rewrite blkmap_cons heap_bytes_insert; [|by apply blkmap_None].
      rewrite mkreg_bytes IH //. lia.
  Qed.

  Lemma layout_elem bs a : a ∈ layout bs → ∃ p q, p ∈ bs ∧ (q < p.2)%nat ∧ a = p.1 + n8 * Z.of_nat q.
  Proof.
    intros (p & Ha & Hp)%elem_of_list_bind. apply elem_of_list_fmap in Ha as (q & -> & Hq%elem_of_seq).
    exists p, q. split; [done|]. split; [lia|done].
  Qed.

  (** Elements at different positions do not overlap. *)
  Lemma layout_apart own bs : 0 ≤ n8 → blocks_ok own → NoDup bs.*1 →
    (∀ p, p ∈ bs → own !! p.1 = Some (mkreg w kk p.2)) →
    ∀ i j a b, layout bs !! i = Some a → layout bs !! j = Some b → i ≠ j → apart a n8 b n8.
  Proof.
    intros Hn8 [_ Hok]. induction bs as [|p bs IH]; intros Hnd Hown i j a b Hi Hj Hij; [done|].
    csimpl in Hnd. apply NoDup_cons in Hnd as [Hp Hnd].
    rewrite /layout bind_cons in Hi Hj. rewrite -/(layout bs) in Hi Hj.
    assert (Hpq : ∀ i a, ((λ q : nat, p.1 + n8 * Z.of_nat q) <$> seq 0 p.2) !! i = Some a →
      (i < p.2)%nat ∧ a = p.1 + n8 * Z.of_nat i).
    { intros i' a' H'. apply list_lookup_fmap_inv in H' as (q & -> & [-> ?]%lookup_seq). split; [lia|done]. }
    assert (Hcross : ∀ i a b, ((λ q : nat, p.1 + n8 * Z.of_nat q) <$> seq 0 p.2) !! i = Some a →
      b ∈ layout bs → apart a n8 b n8).
    { intros i' a' b' Ha' Hb'. apply Hpq in Ha' as [Hi' ->]. apply layout_elem in Hb' as (p' & q' & Hp' & Hq' & ->).
      assert (p.1 ≠ p'.1). { intros Heq. apply Hp. rewrite Heq. apply elem_of_list_fmap. by exists p'. }
      pose proof (Hok _ _ _ _ (Hown p ltac:(by left)) (Hown p' ltac:(by right)) H) as Hap.
      rewrite !mkreg_bytes in Hap. unfold apart in *. nia. }
    apply lookup_app_Some in Hi, Hj. destruct Hi as [Hi|[Hi1 Hi]], Hj as [Hj|[Hj1 Hj]].
    - apply Hpq in Hi as [? ->], Hj as [? ->]. unfold apart. nia.
    - eapply Hcross; [exact Hi|]. by eapply elem_of_list_lookup_2.
    - apply apart_sym. eapply Hcross; [exact Hj|]. by eapply elem_of_list_lookup_2.
    - eapply (IH Hnd ltac:(intros p' Hp'; apply Hown; by right) _ _ _ _ Hi Hj). lia.
  Qed.

  Lemma layout_inside (own : gmap Z region) bs : 0 ≤ n8 →
    (∀ p, p ∈ bs → own !! p.1 = Some (mkreg w kk p.2)) →
    ∀ a, a ∈ layout bs → ∃ b r, own !! b = Some r ∧ b ≤ a ∧ a + n8 ≤ b + region_bytes r.
  Proof.
    intros Hn8 Hown a (p & q & Hp & Hq & ->)%layout_elem. exists p.1, (mkreg w kk p.2). split; [by apply Hown|].
    rewrite mkreg_bytes. nia.
  Qed.

  Lemma layout_facts (own : gmap Z region) bs : 0 ≤ n8 → blocks_ok own → NoDup bs.*1 →
    (∀ p, p ∈ bs → own !! p.1 = Some (mkreg w kk p.2)) → afacts n8 (layout bs) own.
  Proof.
    intros. split; [done|]. split; [by eapply layout_apart|by apply layout_inside].
  Qed.
End layout.

(** ** The segments *)

(** The segments at [sg], with their numbers of elements. *)
Definition segs (sg : list Z) : list (Z * nat) := imap (λ i b, (b, segsize i)) sg.

Lemma segs_fst sg : (segs sg).*1 = sg.
Proof.
  rewrite /segs fmap_imap. apply list_eq. intros i. rewrite list_lookup_imap. by destruct (sg !! i).
Qed.
Lemma segs_snoc sg a : segs (sg ++ [a]) = segs sg ++ [(a, segsize (length sg))].
Proof. rewrite /segs imap_app /=. by rewrite Nat.add_0_r. Qed.

Lemma sum_list_app' (l k : list nat) : sum_list (l ++ k) = (sum_list l + sum_list k)%nat.
Proof. induction l; simpl; lia. Qed.

Lemma segs_total sg : sg ≠ [] → Z.of_nat (sum_list (segs sg).*2) = pw (length sg - 1).
Proof.
  induction sg as [|a sg IH] using rev_ind; [done|]. intros _.
  rewrite segs_snoc fmap_app sum_list_app' app_length. cbn [fmap list_fmap sum_list sum_list_with length snd].
  destruct sg as [|b sg']; [done|]. set (sg := b :: sg') in *.
  rewrite Nat.add_0_r Nat2Z.inj_add IH //. assert (Hl : length sg = S (length sg')) by done. rewrite Hl.
  replace (S (length sg') + 1 - 1)%nat with (S (length sg')) by lia.
  replace (S (length sg') - 1)%nat with (length sg') by lia.
  cbn [segsize]. rewrite pw_S -/(pw (length sg')). pose proof (pw_ge (length sg')). unfold id. lia.
Qed.

Lemma layout_seg w kk sg i s q : sg !! i = Some s → (q < segsize i)%nat →
  layout w kk (segs sg) !! (match i with O => q | S i => Z.to_nat (pw i) + q end)%nat =
  Some (s + stride w kk * Z.of_nat q).
Proof.
  intros Hi Hq. rewrite -(take_drop_middle _ _ _ Hi). pose proof (lookup_lt_Some _ _ _ Hi) as Hlt.
  rewrite /segs imap_app /= layout_app. rewrite -/(segs (take i sg)) Nat.add_0_r take_length_le; [|lia].
  set (tl := imap _ _). rewrite /layout bind_cons -/(layout w kk (segs (take i sg))) -/(layout w kk tl) /=.
  assert (Hlen : (match i with O => q | S i => Z.to_nat (pw i) + q end = length (layout w kk (segs (take i sg))) + q)%nat).
  { rewrite layout_length. destruct i as [|i]; [done|]. f_equal.
    assert (take (S i) sg ≠ []) by (destruct sg; done). apply segs_total in H. rewrite take_length_le in H; [|lia].
    simpl in H. replace (i - 0)%nat with i in H by lia. lia. }
  rewrite Hlen. rewrite lookup_app_r; [|lia]. rewrite lookup_app_l; [|rewrite fmap_length seq_length; lia].
  rewrite list_lookup_fmap lookup_seq_lt; [|lia]. simpl. do 3 f_equal. lia.
Qed.

(** The array of segment pointers, and the fields bucket_bit and bucket_max. *)
Record seg_ok (w : bool) (kk : nat) (bucket : list (option Z)) (bit max : Z) (sg : list Z)
    (own : gmap Z region) : Prop := SegOk {
  so_len : length bucket = 64%nat;
  so_0 : ∀ s i, sg !! 0%nat = Some s → (i < 6)%nat → bucket !! i = Some (Some s);
  so_S : ∀ s i, sg !! S i = Some s → bucket !! (6 + i)%nat = Some (Some (wrap (s - stride w kk * pw i)));
  so_ne : sg ≠ [];
  so_bit : bit = 5 + Z.of_nat (length sg);
  so_max : max = pw (length sg - 1);
  so_nd : NoDup sg;
  so_own : own = blkmap w kk (segs sg);
  so_blocks : blocks_ok own;
  so_kk : (1 ≤ kk)%nat }.

Section seg_ok.
  Context {w : bool} {kk : nat} {bucket : list (option Z)} {bit max : Z} {sg : list Z} {own : gmap Z region}.
  Hypothesis Hok : seg_ok w kk bucket bit max sg own.
  Notation n8 := (stride w kk).

  Lemma stride_pos : 1 ≤ n8.
  Proof. pose proof (so_kk _ _ _ _ _ _ _ Hok). rewrite /stride. destruct w; simpl; lia. Qed.

  Lemma seg_bytes : heap_bytes own = n8 * max.
  Proof.
    rewrite (so_own _ _ _ _ _ _ _ Hok) layout_bytes; [|rewrite segs_fst; apply Hok].
    rewrite layout_length segs_total; [|apply Hok]. by rewrite (so_max _ _ _ _ _ _ _ Hok).
  Qed.
  Lemma seg_len : Z.of_nat (length (layout w kk (segs sg))) = max.
  Proof. rewrite layout_length segs_total; [|apply Hok]. by rewrite (so_max _ _ _ _ _ _ _ Hok). Qed.
  Lemma seg_small : n8 * max < 2 ^ 64.
  Proof. rewrite -seg_bytes. apply blocks_ok_bytes, Hok. Qed.
  Lemma seg_max_bit : max = 2 ^ bit.
  Proof.
    rewrite (so_max _ _ _ _ _ _ _ Hok) (so_bit _ _ _ _ _ _ _ Hok) /pw. f_equal.
    assert (0 < length sg)%nat; [|lia]. pose proof (so_ne _ _ _ _ _ _ _ Hok). destruct sg; [done|simpl; lia].
  Qed.
  Lemma seg_max_ge : 64 ≤ max.
  Proof. rewrite (so_max _ _ _ _ _ _ _ Hok). apply pw_ge. Qed.
  Lemma seg_bit_range : 6 ≤ bit < 64.
  Proof.
    assert (H64 : 2 ^ bit < 2 ^ 64).
    { rewrite -seg_max_bit. pose proof seg_small. pose proof stride_pos. pose proof seg_max_ge. nia. }
    apply Z.pow_lt_mono_r_iff in H64; [|lia|lia]. split; [|done].
    rewrite (so_bit _ _ _ _ _ _ _ Hok). pose proof (so_ne _ _ _ _ _ _ _ Hok). destruct sg; [done|simpl; lia].
  Qed.
  Lemma seg_block s i : sg !! i = Some s → own !! s = Some (mkreg w kk (segsize i)).
  Proof.
    intros Hi. rewrite (so_own _ _ _ _ _ _ _ Hok). apply (blkmap_lookup w kk (segs sg) (s, segsize i)).
    - rewrite segs_fst. apply Hok.
    - apply elem_of_list_lookup. exists i. by rewrite /segs list_lookup_imap Hi.
  Qed.
  Lemma seg_pos s i : sg !! i = Some s → 0 < s ∧ s + n8 * Z.of_nat (segsize i) < 2 ^ 64.
  Proof.
    intros Hi%seg_block. pose proof (so_blocks _ _ _ _ _ _ _ Hok) as [Hb _]. specialize (Hb _ _ Hi).
    by rewrite mkreg_bytes in Hb.
  Qed.
  Lemma seg_facts : afacts n8 (layout w kk (segs sg)) own.
  Proof.
    pose proof stride_pos. apply layout_facts; [lia|apply Hok| |].
    - rewrite segs_fst. apply Hok.
    - intros p Hp. rewrite (so_own _ _ _ _ _ _ _ Hok). apply blkmap_lookup; [|done]. rewrite segs_fst. apply Hok.
  Qed.

  (** One more segment. *)
  Lemma seg_grow a : 0 < a → a + n8 * max < 2 ^ 64 → own !! a = None →
    (∀ b s, own !! b = Some s → apart a (n8 * max) b (region_bytes s)) →
    seg_ok w kk (<[Z.to_nat bit := Some (wrap (a - n8 * max))]> bucket) (bit + 1) (2 * max) (sg ++ [a])
      (<[a := mkreg w kk (Z.to_nat max)]> own).
  Proof.
    intros Ha Hab Hn Hap. pose proof seg_bit_range as Hbr. pose proof seg_max_ge as Hmg.
    pose proof (so_bit _ _ _ _ _ _ _ Hok) as Hbit. pose proof (so_max _ _ _ _ _ _ _ Hok) as Hmax.
    pose proof (so_ne _ _ _ _ _ _ _ Hok) as Hne.
    assert (Hni : a ∉ sg).
    { intros Hin. rewrite (so_own _ _ _ _ _ _ _ Hok) in Hn. apply blkmap_None in Hn. by rewrite segs_fst in Hn. }
    assert (Hl : (0 < length sg)%nat) by (destruct sg; [done|simpl; lia]).
    assert (Hsz : segsize (length sg) = Z.to_nat max).
    { rewrite Hmax. destruct (length sg) as [|l] eqn:E; [lia|]. simpl. replace (l - 0)%nat with l by lia. done. }
    split.
    - rewrite insert_length. apply Hok.
    - intros s i Hs Hi. rewrite list_lookup_insert_ne; [|lia]. apply (so_0 _ _ _ _ _ _ _ Hok); [|done].
      rewrite lookup_app_l in Hs; done.
    - intros s i Hs. destruct (decide (S i = length sg)) as [Hi|Hi].
      + rewrite lookup_app_r in Hs; [|lia]. rewrite Hi Nat.sub_diag in Hs. simpl in Hs. injection Hs as <-.
        replace (Z.to_nat bit) with (6 + i)%nat by lia.
        rewrite list_lookup_insert; [|rewrite (so_len _ _ _ _ _ _ _ Hok); lia].
        rewrite Hmax. replace (length sg - 1)%nat with i by lia. done.
      + assert (S i < length sg)%nat.
        { apply lookup_lt_Some in Hs. rewrite app_length in Hs. simpl in Hs. lia. }
        rewrite lookup_app_l in Hs; [|lia]. rewrite list_lookup_insert_ne; [|lia]. by apply (so_S _ _ _ _ _ _ _ Hok).
    - intros ?. by destruct sg.
    - rewrite app_length /=. lia.
    - rewrite app_length /= Hmax -pw_S. f_equal. lia.
    - apply NoDup_app. split; [apply Hok|]. split; [|apply NoDup_singleton]. intros x Hx ->%elem_of_list_singleton. done.
    - rewrite segs_snoc blkmap_snoc; [|by rewrite segs_fst]. simpl. by rewrite -(so_own _ _ _ _ _ _ _ Hok) Hsz.
    - apply blocks_ok_insert; [apply Hok|done| |done|]; rewrite mkreg_bytes Z2Nat.id; (lia || done).
    - apply Hok.
  Qed.
End seg_ok.

Section seg_wp.
  Context `{!memG}.

  Lemma wp_seg_get bucket i p Φ : 0 ≤ i < 64 → bucket !! Z.to_nat i = Some (Some p) →
    Φ p ⊢ wp (seg_get bucket i) Φ.
  Proof. iIntros (Hi Hp) "H". rewrite /seg_get. iApply wp_if_true; [done|]. rewrite Hp. wp_ret. done. Qed.

  Lemma ptr_add_mod p o o' : o mod 2 ^ 64 = o' mod 2 ^ 64 → ptr_add p o = ptr_add p o'.
  Proof. intros Ho. rewrite /ptr_add /wrap -Zplus_mod_idemp_r Ho Zplus_mod_idemp_r //. Qed.
  Lemma ptr_add_adj s c o : 0 ≤ s + (o - c) < 2 ^ 64 → ptr_add (wrap (s - c)) o = s + (o - c).
  Proof.
    intros Hr. rewrite /ptr_add /wrap Zplus_mod_idemp_l. replace (s - c + o) with (s + (o - c)) by lia.
    by apply Z.mod_small.
  Qed.

  (** The address of a position. *)
  Lemma wp_seg_pos w kk bucket bit max sg own (pos : nat) a off Φ :
    seg_ok w kk bucket bit max sg own → layout w kk (segs sg) !! pos = Some a →
    off mod 2 ^ 64 = (stride w kk * Z.of_nat pos) mod 2 ^ 64 →
    Φ a ⊢ wp (bsr ← ilog2 (Z.lor (Z.of_nat pos) 1); segment ← seg_get bucket bsr; mret (ptr_add segment off)) Φ.
  Proof.
    iIntros (Hok Ha Hoff) "HΦ". wp_bind.
    pose proof (seg_bit_range Hok) as Hbr. pose proof (seg_max_bit Hok) as Hmb. pose proof (stride_pos Hok) as Hst.
    assert (Hp : Z.of_nat pos < max).
    { rewrite -(seg_len Hok). apply lookup_lt_Some in Ha. lia. }
    assert (Hp64 : Z.of_nat pos < 2 ^ 64).
    { rewrite Hmb in Hp. eapply Z.lt_le_trans; [exact Hp|]. apply Z.pow_le_mono_r; lia. }
    assert (Hlog : Z.log2 (Z.lor (Z.of_nat pos) 1) = Z.log2 (Z.of_nat pos)).
    { rewrite Z.log2_lor; [|lia..]. change (Z.log2 1) with 0. pose proof (Z.log2_nonneg (Z.of_nat pos)). lia. }
    assert (Hlt : Z.lor (Z.of_nat pos) 1 < 2 ^ 64).
    { destruct (decide (pos = 0%nat)) as [->|]; [done|]. apply Z.log2_lt_pow2.
      - assert (0 ≤ Z.lor (Z.of_nat pos) 1) by (apply Z.lor_nonneg; lia).
        assert (Z.lor (Z.of_nat pos) 1 ≠ 0) by (rewrite Z.lor_eq_0_iff; lia). lia.
      - rewrite Hlog. apply Z.log2_lt_pow2; lia. }
    assert (Hgt : 0 < Z.lor (Z.of_nat pos) 1).
    { assert (0 ≤ Z.lor (Z.of_nat pos) 1) by (apply Z.lor_nonneg; lia).
      assert (Z.lor (Z.of_nat pos) 1 ≠ 0) by (rewrite Z.lor_eq_0_iff; lia). lia. }
    iApply wp_ilog2; [lia|]. rewrite Hlog. wp_bind.
    rewrite (so_max _ _ _ _ _ _ _ Hok) in Hp.
    destruct (haddr_inv pos _ Hp) as [H64|(i & q & Hi & Hq & Heq)].
    - assert (Hl5 : Z.log2 (Z.of_nat pos) < 6).
      { destruct (decide (pos = 0%nat)) as [->|]; [done|]. apply Z.log2_lt_pow2; lia. }
      pose proof (Z.log2_nonneg (Z.of_nat pos)).
      destruct (lookup_lt_is_Some_2 sg 0%nat) as [s0 Hs0].
      { pose proof (so_ne _ _ _ _ _ _ _ Hok). destruct sg; [done|simpl; lia]. }
      iApply wp_seg_get; [lia| |].
      { apply (so_0 _ _ _ _ _ _ _ Hok); [exact Hs0|lia]. }
      wp_ret. rewrite (ptr_add_mod _ _ _ Hoff).
      assert (Heq : a = s0 + stride w kk * Z.of_nat pos).
      { pose proof (layout_seg w kk sg 0 s0 pos Hs0 H64) as Hl. simpl in Hl. rewrite Ha in Hl. by injection Hl. }
      destruct (seg_pos Hok _ _ Hs0) as [Hq0 Hq1]. rewrite /ptr_add /wrap Z.mod_small; [by rewrite -Heq|].
      cbn [segsize] in Hq1. nia.
    - subst pos. pose proof (pw_ge i). rewrite Nat2Z.inj_add Z2Nat.id in Hlog |- *; [|lia..].
      assert (Hl : Z.log2 (pw i + Z.of_nat q) = 6 + Z.of_nat i).
      { apply Z.log2_unique; [lia|]. rewrite -Z.add_1_r (Z.pow_add_r _ _ 1); [|lia..]. rewrite -/(pw i). lia. }
      rewrite Hl.
      destruct (lookup_lt_is_Some_2 sg (S i)) as [s Hs]; [lia|].
      pose proof (so_bit _ _ _ _ _ _ _ Hok).
      iApply wp_seg_get; [lia| |].
      { replace (Z.to_nat (6 + Z.of_nat i)) with (6 + i)%nat by lia. by apply (so_S _ _ _ _ _ _ _ Hok). }
      wp_ret. rewrite (ptr_add_mod _ _ _ Hoff).
      assert (Heq : a = s + stride w kk * Z.of_nat q).
      { pose proof (layout_seg w kk sg (S i) s q Hs Hq) as Hl'. simpl in Hl'. rewrite Ha in Hl'. by injection Hl'. }
      destruct (seg_pos Hok _ _ Hs) as [Hq0 Hq1]. cbn [segsize] in Hq1. rewrite -/(pw i) Z2Nat.id in Hq1; [|lia].
      rewrite ptr_add_adj Nat2Z.inj_add Z2Nat.id; [|lia|nia|lia].
      replace (s + (stride w kk * (pw i + Z.of_nat q) - stride w kk * pw i)) with a by lia. done.
  Qed.
End seg_wp.
