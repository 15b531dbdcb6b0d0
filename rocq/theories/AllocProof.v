(** * Proofs about the allocator of fixed size blocks. *)
From Verif Require Export AllocSpec ArrayHist.
Global Open Scope Z_scope.

(** ** Geometry of a segment *)
Lemma mod_mul_8 x n : x mod 8 = 0 → 0 < n → n mod 8 = 0 → (x mod n) mod 8 = 0.
Proof.
  intros Hx Hn H8. apply Z.mod_divide in Hx; [|lia]. apply Z.mod_divide in H8; [|lia].
  apply Z.mod_divide; [lia|]. rewrite Z.mod_eq; [|lia]. apply Z.divide_sub_r; [done|]. by apply Z.divide_mul_l.
Qed.

Section geo.
  Variables bs al : Z.
  Notation S := (segment_size bs al).

  Definition nblk (a : Z) : Z := (S - padding al a) / bs.
  Definition blk (a : Z) (i : nat) : Z := a + 8 + padding al a + bs * Z.of_nat i.
  Definition blocks_of (a : Z) : list Z := blk a <$> seq 0 (Z.to_nat (nblk a)).

  Record geo : Prop := {
    geo_bs : 0 < bs; geo_al : 0 < al;
    geo_bs8 : bs mod 8 = 0; geo_al8 : al mod 8 = 0; geo_div : bs mod al = 0;
    geo_max : 8 + al + bs < 2 ^ 64;
    geo_fits : config_fits bs al }.
  Hypothesis G : geo.

  Definition seg_ok (a : Z) : Prop := 0 < a ∧ a mod 16 = 0 ∧ a + S < 2 ^ 64.

  Lemma pad_range a : 0 ≤ padding al a < al.
  Proof. apply Z.mod_pos_bound, geo_al, G. Qed.
  Lemma seg_mod8 : S mod 8 = 0.
  Proof.
    rewrite /segment_size. pose proof (geo_bs8 G). pose proof (geo_al8 G).
    destruct (Z.max_spec 4032 (8 + al + bs)) as [[_ ->]|[_ ->]]; [|done]. Z.div_mod_to_equations. lia.
  Qed.
  Lemma pad_mod8 a : a mod 16 = 0 → padding al a mod 8 = 0.
  Proof. intros Ha. apply mod_mul_8; [Z.div_mod_to_equations; lia|apply G|apply G]. Qed.
  Lemma seg_ge a : 8 + bs ≤ S - padding al a.
  Proof. pose proof (pad_range a). rewrite /segment_size. lia. Qed.
  Lemma nblk_pos a : 1 ≤ nblk a.
  Proof. pose proof (seg_ge a). pose proof (geo_bs G). rewrite /nblk. apply Z.div_le_lower_bound; lia. Qed.
  Lemma nblk_fits a : seg_ok a → 8 + padding al a + bs * nblk a ≤ S.
  Proof.
    intros (Ha & H16 & _). pose proof (geo_fits G a Ha H16) as Hf. rewrite /fits_at in Hf.
    pose proof (geo_bs G). pose proof (Z.div_mod (S - padding al a) bs ltac:(lia)). rewrite /nblk. lia.
  Qed.
  Lemma nblk_left a : bs * nblk a ≤ S - padding al a < bs * nblk a + bs.
  Proof.
    pose proof (geo_bs G). rewrite /nblk. pose proof (Z.div_mod (S - padding al a) bs ltac:(lia)).
    pose proof (Z.mod_pos_bound (S - padding al a) bs ltac:(lia)). lia.
  Qed.
  Lemma blk_inside a i : seg_ok a → (i < Z.to_nat (nblk a))%nat → a + 8 ≤ blk a i ∧ blk a i + bs ≤ a + S.
  Proof.
    intros Ha Hi. pose proof (nblk_fits a Ha). pose proof (pad_range a). pose proof (geo_bs G). rewrite /blk. nia.
  Qed.
  Lemma blk_aligned a i : blk a i mod al = 0.
  Proof.
    pose proof (geo_al G). rewrite /blk /padding.
    assert (Hb : (al | bs)) by (apply Z.mod_divide; [lia|apply G]). destruct Hb as [k Hk].
    rewrite Hk. replace (a + 8 + (- (a + 8)) mod al + k * al * Z.of_nat i) with
      (a + 8 + (- (a + 8)) mod al + k * Z.of_nat i * al) by ring.
    rewrite Z.mod_add; [|lia]. rewrite Z.add_mod_idemp_r; [|lia]. by rewrite Z.add_opp_diag_r Z.mod_0_l; [|lia].
  Qed.
  Lemma blk_apart a i j : i ≠ j → apart (blk a i) bs (blk a j) bs.
  Proof. intros Hij. pose proof (geo_bs G). rewrite /apart /blk. nia. Qed.
  Lemma blocks_of_in p a : p ∈ blocks_of a ↔ ∃ i, (i < Z.to_nat (nblk a))%nat ∧ p = blk a i.
  Proof. rewrite /blocks_of elem_of_list_fmap. setoid_rewrite elem_of_seq. split; intros (i & H1 & H2); exists i; split; [lia|done|done|lia]. Qed.
  Lemma blocks_of_NoDup a : NoDup (blocks_of a).
  Proof. pose proof (geo_bs G). apply NoDup_fmap_2; [|apply NoDup_seq]. intros i j. rewrite /blk. nia. Qed.

  (** Heap blocks of the segments *)
  Definition seg_reg : region := RWords (Z.to_nat (S / 8)).
  Definition seg_map (l : list Z) : gmap Z region := list_to_map ((λ a, (a, seg_reg)) <$> l).
  Lemma seg_reg_bytes : region_bytes seg_reg = S.
  Proof.
    rewrite /seg_reg /=. pose proof seg_mod8. pose proof (Z.div_mod S 8 ltac:(lia)).
    pose proof (seg_ge 0). pose proof (pad_range 0). pose proof (geo_bs G). lia.
  Qed.
  Lemma seg_map_cons a l : seg_map (a :: l) = <[a := seg_reg]> (seg_map l).
  Proof. done. Qed.
  Lemma seg_map_lookup l a : a ∈ l → seg_map l !! a = Some seg_reg.
  Proof.
    induction l as [|b l IH]; [by intros ?%elem_of_nil|]. rewrite seg_map_cons. intros [->|Ha]%elem_of_cons; [by rewrite lookup_insert|].
    destruct (decide (a = b)) as [->|]; [by rewrite lookup_insert|]. rewrite lookup_insert_ne //. by apply IH.
  Qed.
  Lemma seg_map_None l a : seg_map l !! a = None ↔ a ∉ l.
  Proof.
    rewrite /seg_map. rewrite -not_elem_of_list_to_map. by rewrite -list_fmap_compose list_fmap_id.
  Qed.

  Lemma foldr_segment_perm l l' : l ≡ₚ l' →
    foldr (λ a n, segment_blocks bs al a + n) 0 l = foldr (λ a n, segment_blocks bs al a + n) 0 l'.
  Proof. induction 1; simpl; lia. Qed.
  Lemma total_blocks_seg l : NoDup l →
    total_blocks bs al (seg_map l) = foldr (λ a n, segment_blocks bs al a + n) 0 l.
  Proof.
    intros Hnd. rewrite /total_blocks. apply foldr_segment_perm.
    assert (dom (seg_map l) = list_to_set l) as ->; [|by apply elements_list_to_set].
    apply set_eq. intros a. rewrite elem_of_dom elem_of_list_to_set. split.
    - intros [r Hr]. destruct (decide (a ∈ l)) as [|Hn]; [done|]. apply seg_map_None in Hn. congruence.
    - intros Ha. eexists. by apply seg_map_lookup.
  Qed.

  Definition segs_ok (l : list Z) : Prop :=
    NoDup l ∧ Forall seg_ok l ∧ blocks_ok (seg_map l).

  Lemma segs_ok_cons a l : segs_ok l → seg_ok a → a ∉ l →
    (∀ b, b ∈ l → apart a S b S) → segs_ok (a :: l).
  Proof.
    intros (H1 & H2 & H3) Ha Hn Hap. split; [by constructor|]. split; [by constructor|]. rewrite seg_map_cons.
    apply blocks_ok_insert; [done|apply Ha|rewrite seg_reg_bytes; apply Ha|by apply seg_map_None|].
    intros b s Hb. destruct (decide (b ∈ l)) as [Hbl|Hbl].
    - rewrite (seg_map_lookup _ _ Hbl) in Hb. injection Hb as <-. rewrite seg_reg_bytes. by apply Hap.
    - apply seg_map_None in Hbl. congruence.
  Qed.
  Lemma segs_ok_inv a l : segs_ok (a :: l) → segs_ok l ∧ seg_ok a ∧ a ∉ l.
  Proof.
    intros (H1 & H2 & H3). apply NoDup_cons in H1 as [Hn H1]. apply Forall_cons in H2 as [Ha H2].
    split; [|done]. split; [done|]. split; [done|]. eapply blocks_ok_subseteq; [|exact H3].
    rewrite seg_map_cons. apply insert_subseteq. by apply seg_map_None.
  Qed.
  Lemma segs_apart l a b : segs_ok l → a ∈ l → b ∈ l → a ≠ b → apart a S b S.
  Proof.
    intros (_ & _ & [_ Hok]) Ha Hb Hne. specialize (Hok a _ b _ (seg_map_lookup _ _ Ha) (seg_map_lookup _ _ Hb) Hne).
    by rewrite seg_reg_bytes in Hok.
  Qed.

  Definition all_blocks (l : list Z) : list Z := l ≫= blocks_of.
  Lemma all_blocks_cons a l : all_blocks (a :: l) = blocks_of a ++ all_blocks l.
  Proof. done. Qed.
  Lemma all_blocks_in l p : p ∈ all_blocks l ↔ ∃ a i, a ∈ l ∧ (i < Z.to_nat (nblk a))%nat ∧ p = blk a i.
  Proof.
    rewrite /all_blocks elem_of_list_bind. setoid_rewrite blocks_of_in. split.
    - intros (a & (i & Hi & ->) & Ha). by exists a, i.
    - intros (a & i & Ha & Hi & ->). exists a. split; [by exists i|done].
  Qed.
  Lemma all_blocks_inside l p : segs_ok l → p ∈ all_blocks l →
    0 < p ∧ p mod al = 0 ∧ ∃ b r, seg_map l !! b = Some r ∧ b ≤ p ∧ p + bs ≤ b + region_bytes r.
  Proof.
    intros (_ & HF & _) (a & i & Ha & Hi & ->)%all_blocks_in. rewrite Forall_forall in HF. specialize (HF _ Ha).
    pose proof (blk_inside _ _ HF Hi). destruct HF as (H0 & _ & _). split; [lia|]. split; [apply blk_aligned|].
    exists a, seg_reg. split; [by apply seg_map_lookup|]. rewrite seg_reg_bytes. lia.
  Qed.
  Lemma all_blocks_apart l p q : segs_ok l → p ∈ all_blocks l → q ∈ all_blocks l → p ≠ q → apart p bs q bs.
  Proof.
    intros Hok (a & i & Ha & Hi & ->)%all_blocks_in (b & j & Hb & Hj & ->)%all_blocks_in Hne.
    pose proof Hok as (_ & HF & _). rewrite Forall_forall in HF.
    pose proof (blk_inside _ _ (HF _ Ha) Hi). pose proof (blk_inside _ _ (HF _ Hb) Hj).
    destruct (decide (a = b)) as [<-|Hab].
    - apply blk_apart. by intros ->.
    - pose proof (segs_apart _ _ _ Hok Ha Hb Hab) as Hap. rewrite /apart in Hap |- *. lia.
  Qed.
  Lemma all_blocks_NoDup l : segs_ok l → NoDup (all_blocks l).
  Proof.
    induction l as [|a l IH]; [constructor|]. intros Hok. rewrite /all_blocks /=.
    pose proof (segs_ok_inv _ _ Hok) as (Hl & Ha & Hn).
    apply NoDup_app. split; [apply blocks_of_NoDup|]. split; [|by apply IH].
    intros p (i & Hi & Hp)%blocks_of_in (b & j & Hb & Hj & Hq)%all_blocks_in.
    assert (Hab : a ≠ b) by (by intros ->).
    pose proof (segs_apart _ a b Hok ltac:(left) ltac:(by right) Hab) as Hap.
    destruct Hl as (_ & HF & _). rewrite Forall_forall in HF.
    pose proof (blk_inside _ _ Ha Hi). pose proof (blk_inside _ _ (HF _ Hb) Hj). pose proof (geo_bs G).
    rewrite /apart in Hap. lia.
  Qed.
  Lemma all_blocks_total l : segs_ok l → Z.of_nat (length (all_blocks l)) = total_blocks bs al (seg_map l).
  Proof.
    intros (Hnd & _). rewrite total_blocks_seg //. clear Hnd. induction l as [|a l IH]; [done|].
    rewrite all_blocks_cons app_length /blocks_of fmap_length seq_length /= -IH. pose proof (nblk_pos a).
    rewrite /segment_blocks -/(nblk a). lia.
  Qed.
  Lemma all_blocks_bytes l : segs_ok l → bs * Z.of_nat (length (all_blocks l)) ≤ heap_bytes (seg_map l).
  Proof.
    induction l as [|a l IH]; [rewrite heap_bytes_empty /=; lia|]. intros Hok. rewrite /all_blocks /=.
    pose proof (segs_ok_inv _ _ Hok) as (Hl & Ha & Hn). specialize (IH Hl).
    rewrite seg_map_cons heap_bytes_insert; [|by apply seg_map_None]. rewrite seg_reg_bytes app_length.
    rewrite /blocks_of fmap_length seq_length. pose proof (nblk_fits _ Ha). pose proof (nblk_pos a).
    pose proof (pad_range a). rewrite /all_blocks in IH. rewrite Nat2Z.inj_add Z2Nat.id; [|lia]. rewrite Z.mul_add_distr_l. etransitivity; [|apply Z.add_le_mono; [|exact IH]]; [reflexivity|]. lia.
  Qed.
End geo.

(** ** Words of a segment *)
Definition wcells (a : Z) (n : nat) : list Z := (λ j : nat, a + 8 * Z.of_nat j) <$> seq 0 n.
Lemma wcells_app a n k : wcells a (n + k) = wcells a n ++ wcells (a + 8 * Z.of_nat n) k.
Proof.
  rewrite /wcells seq_app fmap_app. f_equal. pose proof (fmap_add_seq n 0 k) as Hs. rewrite Nat.add_0_r in Hs.
  rewrite Nat.add_0_l -Hs -list_fmap_compose. apply list_fmap_ext. intros i j _. simpl. lia.
Qed.
Lemma wcells_mul d n k :
  wcells d (n * k) = ((λ i : nat, d + 8 * Z.of_nat k * Z.of_nat i) <$> seq 0 n) ≫= λ p, wcells p k.
Proof.
  induction n as [|n IH]; [done|]. replace (S n * k)%nat with (n * k + k)%nat by lia.
  rewrite wcells_app IH seq_S fmap_app bind_app. f_equal. cbn [Nat.add fmap list_fmap mbind list_bind]. rewrite app_nil_r. f_equal. lia.
Qed.

Section seg.
  Variables bs al : Z.
  Hypothesis G : geo bs al.
  Notation nw := (Z.to_nat (bs / 8)).

  Definition junk_cells (a : Z) : list Z :=
    wcells (a + 8) (Z.to_nat (padding al a / 8)) ++
    wcells (a + 8 + padding al a + bs * nblk bs al a)
      (Z.to_nat ((segment_size bs al - 8 - padding al a - bs * nblk bs al a) / 8)).

  Lemma seg_cells a : seg_ok bs al a →
    region_cells a (seg_reg bs al) ≡ₚ a :: junk_cells a ++ (blocks_of bs al a ≫= λ p, wcells p nw).
  Proof.
    intros Ha. pose proof (seg_mod8 _ _ G). pose proof (pad_mod8 _ _ G a (proj1 (proj2 Ha))).
    pose proof (pad_range _ _ G a). pose proof (nblk_pos _ _ G a). pose proof (nblk_fits _ _ G a Ha).
    pose proof (geo_bs _ _ G). pose proof (geo_bs8 _ _ G).
    set (x := Z.to_nat (padding al a / 8)). set (n := Z.to_nat (nblk bs al a)).
    set (y := Z.to_nat ((segment_size bs al - 8 - padding al a - bs * nblk bs al a) / 8)).
    assert (Hx : 8 * Z.of_nat x = padding al a) by (Z.div_mod_to_equations; lia).
    assert (Hk : 8 * Z.of_nat nw = bs) by (Z.div_mod_to_equations; lia).
    assert (Hn : Z.of_nat n = nblk bs al a) by lia.
    assert (Hbn : (bs * nblk bs al a) mod 8 = 0) by by rewrite Z.mul_mod // (geo_bs8 _ _ G) Z.mul_0_l.
    assert (Hy : 8 * Z.of_nat y = segment_size bs al - 8 - padding al a - bs * nblk bs al a).
    { rewrite /y Z2Nat.id; [|apply Z.div_pos; lia]. apply Z.mod_divide in Hbn as [q Hq]; [|lia].
      rewrite Hq. Z.div_mod_to_equations. lia. }
    assert (HS : Z.to_nat (segment_size bs al / 8) = (1 + (x + (n * nw + y)))%nat).
    { apply Nat2Z.inj. rewrite Z2Nat.id; [|apply Z.div_pos; lia]. apply (Z.mul_reg_l _ _ 8); [lia|].
      rewrite -(Z_div_exact_full_2 _ 8); [|lia|done]. rewrite !Nat2Z.inj_add Nat2Z.inj_mul Hn.
      transitivity (8 + 8 * Z.of_nat x + (8 * Z.of_nat nw) * nblk bs al a + 8 * Z.of_nat y); [|ring].
      rewrite Hx Hk Hy. ring. }
    change (region_cells a (seg_reg bs al)) with (wcells a (Z.to_nat (segment_size bs al / 8))).
    rewrite HS !wcells_app wcells_mul Hx Hk. change (8 * Z.of_nat 1) with 8. rewrite /junk_cells.
    change (wcells a 1) with [a + 0]. rewrite Z.add_0_r /=. f_equiv. rewrite -app_assoc. f_equiv; [done|].
    assert (Hnn : 8 * Z.of_nat (n * nw) = bs * nblk bs al a).
    { rewrite Nat2Z.inj_mul Hn. transitivity (8 * Z.of_nat nw * nblk bs al a); [ring|]. by rewrite Hk. }
    rewrite Hnn. by rewrite (comm app).
  Qed.

  (** ** Resources *)
  Context `{!memG}.

  Definition anyword (k : Z) : iProp := ∃ c, ⌜wordcell c⌝ ∗ k ↦ c.
  Definition blockR (p : Z) : iProp := [∗ list] k ∈ wcells p nw, anyword k.

  Lemma seg_split a : seg_ok bs al a →
    ([∗ list] k ∈ region_cells a (seg_reg bs al), anyword k) ⊣⊢
    anyword a ∗ ([∗ list] k ∈ junk_cells a, anyword k) ∗ [∗ list] p ∈ blocks_of bs al a, blockR p.
  Proof.
    intros Ha. rewrite (seg_cells a Ha) /= big_sepL_app big_sepL_bind //.
  Qed.

  (** List of segments *)
  Fixpoint segsR (l : list Z) (h : Z) : iProp :=
    match l with
    | [] => ⌜h = 0⌝
    | a :: l => ⌜h = a⌝ ∗ ∃ n, a ↦ W n ∗ ([∗ list] k ∈ junk_cells a, anyword k) ∗ segsR l n
    end.
  (** List of free blocks *)
  Fixpoint freeR (l : list Z) (h : Z) : iProp :=
    match l with
    | [] => ⌜h = 0⌝
    | p :: l => ⌜h = p ∧ p ≠ 0⌝ ∗ ∃ n, p ↦ W n ∗ ([∗ list] k ∈ wcells (p + 8) (nw - 1), anyword k) ∗ freeR l n
    end.

  Lemma nw_pos : (1 ≤ nw)%nat.
  Proof. pose proof (geo_bs _ _ G). pose proof (geo_bs8 _ _ G). Z.div_mod_to_equations. lia. Qed.
  Lemma nw_bs : 8 * Z.of_nat nw = bs.
  Proof. pose proof (geo_bs _ _ G). pose proof (geo_bs8 _ _ G). Z.div_mod_to_equations. lia. Qed.
  Lemma blockR_split p : blockR p ⊣⊢ anyword p ∗ [∗ list] k ∈ wcells (p + 8) (nw - 1), anyword k.
  Proof.
    rewrite /blockR. pose proof nw_pos. replace nw with (1 + (nw - 1))%nat at 1 by lia. rewrite wcells_app /=.
    change (8 * Z.of_nat 1) with 8. by rewrite Z.add_0_r.
  Qed.

  (** The allocator [t] has segments [own]; the blocks [used] are allocated, and
      [freed] are at the head of the free list. *)
  Definition alloc_pure (t : allocator) (used : gset Z) (freed : list Z) (own : gmap Z region) (segs fr : list Z) : Prop :=
    al_block_size t = bs ∧ al_align_size t = al ∧ al_count t = Z.of_nat (size used) ∧
    segs_ok bs al segs ∧ own = seg_map bs al segs ∧ fr ++ elements used ≡ₚ all_blocks bs al segs ∧
    freed `prefix_of` fr.
  Definition allocR (t : allocator) (used : gset Z) (freed : list Z) (own : gmap Z region) : iProp :=
    ∃ segs fr, ⌜alloc_pure t used freed own segs fr⌝ ∗ segsR segs (al_used_segment t) ∗ freeR fr (al_free_block t).

  Lemma alloc_pure_NoDup t used freed own segs fr : alloc_pure t used freed own segs fr → NoDup (fr ++ elements used).
  Proof. intros (_ & _ & _ & Hs & _ & Hp & _). rewrite Hp. by apply all_blocks_NoDup. Qed.

  Lemma alloc_pure_total t used freed own segs fr : alloc_pure t used freed own segs fr →
    total_blocks bs al own = Z.of_nat (length fr) + Z.of_nat (size used).
  Proof.
    intros (_ & _ & _ & Hs & -> & Hp & _). rewrite -(all_blocks_total _ _ G) // -Hp app_length Nat2Z.inj_add. done.
  Qed.

  Lemma allocR_facts t used freed own : allocR t used freed own -∗
    ⌜al_block_size t = bs ∧ al_align_size t = al ∧ al_count t = Z.of_nat (size used) ∧ Z.of_nat (size used) * bs < 2 ^ 64 ∧
     blocks_ok own ∧
     (∀ p, p ∈ used → 0 < p ∧ p mod al = 0 ∧ ∃ b r, own !! b = Some r ∧ b ≤ p ∧ p + bs ≤ b + region_bytes r) ∧
     (∀ p q, p ∈ used → q ∈ used → p ≠ q → apart p bs q bs)⌝.
  Proof.
    iIntros "(%segs & %fr & %Hp & _)". iPureIntro. destruct Hp as (-> & -> & -> & Hs & -> & Hp & Hf).
    assert (Hin : ∀ p, p ∈ used → p ∈ all_blocks bs al segs).
    { intros p Hpu. rewrite -Hp. apply elem_of_app. right. by apply elem_of_elements. }
    split; [done|]. split; [done|]. split; [done|]. split.
    - pose proof (all_blocks_bytes _ _ G _ Hs) as Hb. pose proof (blocks_ok_bytes _ (proj2 (proj2 Hs))).
      rewrite -Hp app_length in Hb. change (length (elements used)) with (size used) in Hb. pose proof (geo_bs _ _ G). nia.
    - split; [apply Hs|]. split.
      + intros p Hpu. by apply all_blocks_inside; [| |apply Hin].
      + intros p q Hpu Hqu. by eapply all_blocks_apart; [|exact Hs|apply Hin|apply Hin].
  Qed.

  Lemma freeR_pos l h : freeR l h -∗ ⌜h = 0 ↔ l = []⌝.
  Proof. destruct l as [|p l]; simpl; [by iIntros (->)|]. iIntros "([-> %Hp] & _)". iPureIntro. split; [done|done]. Qed.

  (** ** Operations *)
  Lemma wp_carve fuel n : ∀ d size h fr Φ, (n < fuel)%nat → 0 < d →
    d + bs * (Z.of_nat n + 1) < 2 ^ 64 → bs * (Z.of_nat n + 1) ≤ size < bs * (Z.of_nat n + 1) + bs → size < 2 ^ 64 →
    ([∗ list] i ∈ seq 0 (S n), blockR (d + bs * Z.of_nat i)) -∗ freeR fr h -∗
    (∀ h', freeR (reverse ((λ i : nat, d + bs * Z.of_nat i) <$> seq 0 (S n)) ++ fr) h' -∗ Φ h') -∗
    wp (allocator_carve fuel bs d size h) Φ.
  Proof.
    revert n. induction fuel as [|fuel IH]; intros n d size h fr Φ Hf Hd Hmax Hsz Hs64; [lia|].
    iIntros "Hb Hfr HΦ". cbn [allocator_carve]. pose proof (geo_bs _ _ G).
    replace (S n) with (1 + n)%nat by lia. rewrite seq_app. cbn [seq Nat.add]. iDestruct "Hb" as "[[Hb0 _] Hb]".
    rewrite Z.mul_0_r Z.add_0_r blockR_split. iDestruct "Hb0" as "[(%c & %Hc & Hd) Hrest]". wp_store.
    iAssert (freeR (d :: fr) d) with "[Hd Hrest Hfr]" as "Hfr".
    { simpl. iSplit; [iPureIntro; split; [done|lia]|]. iExists h. iFrame. }
    destruct n as [|n].
    - assert (Hsub : sub64 size bs = size - bs) by (rewrite /sub64 Z.mod_small //; lia). rewrite Hsub.
      destruct (decide (size - bs >= bs)); [lia|]. wp_ret. iApply "HΦ". simpl. by rewrite Z.mul_0_r Z.add_0_r.
    - assert (Hsub : sub64 size bs = size - bs) by (rewrite /sub64 Z.mod_small //; lia). rewrite Hsub.
      destruct (decide (size - bs >= bs)); [|lia].
      assert (Hpa : ptr_add d bs = d + bs) by (rewrite /ptr_add /wrap Z.mod_small //; lia). rewrite Hpa.
      assert (Hseq : ∀ k : nat, (λ i : nat, d + bs * Z.of_nat i) <$> seq 1 k = (λ i : nat, d + bs + bs * Z.of_nat i) <$> seq 0 k).
      { intros k. rewrite -(fmap_add_seq 1 0 k) -list_fmap_compose. apply list_fmap_ext. intros i j _. simpl. lia. }
      iApply (IH n with "[Hb] Hfr"); [lia|lia|lia|lia|lia| |].
      { rewrite -(big_sepL_fmap (λ i : nat, d + bs * Z.of_nat i) (λ _ p, blockR p)) Hseq big_sepL_fmap. done. }
      iIntros (h') "Hfr". iApply "HΦ". rewrite (fmap_app _ [0%nat]) reverse_app -app_assoc Hseq.
      change ((λ i : nat, d + bs * Z.of_nat i) <$> [0%nat]) with [d + bs * 0]. by rewrite reverse_singleton Z.mul_0_r Z.add_0_r.
  Qed.

  Lemma padding_eq x a : x = a + 8 → 0 < al →
    padding al a = if decide (x mod al ≠ 0) then al - x mod al else 0.
  Proof.
    intros -> Hal. rewrite /padding. destruct (decide _) as [Hne|Hz].
    - by rewrite Z.mod_opp_l_nz; [|lia|].
    - apply dec_stable in Hz. by rewrite Z.mod_opp_l_z; [|lia|].
  Qed.

  Hypothesis Henv : memG_env.

  Lemma big_U_anyword ks : cells ks U ⊢ [∗ list] k ∈ ks, anyword k.
  Proof. apply big_sepL_mono. iIntros (i k _) "H". iExists U. by iFrame. Qed.

  Lemma wp_refill t used freed own cl Φ : own ##ₘ cl → al_free_block t = 0 →
    allocR t used freed own -∗ hctl (own ∪ cl) -∗
    (∀ t' a, ⌜own !! a = None⌝ -∗ ⌜<[a := seg_reg bs al]> own ##ₘ cl⌝ -∗ ⌜al_free_block t' ≠ 0⌝ -∗ ⌜freed = [] ∧ Z.of_nat (size used) = total_blocks bs al own⌝ -∗
      allocR t' used [] (<[a := seg_reg bs al]> own) -∗ hctl (<[a := seg_reg bs al]> own ∪ cl) -∗ Φ t') -∗
    wp (allocator_refill t) Φ.
  Proof.
    iIntros (Hd H0) "(%segs & %fr & %Hp & Hs & Hfr) Hc HΦ". rewrite H0. iDestruct (freeR_pos with "Hfr") as %Hfr0.
    assert (fr = []) as -> by by apply Hfr0. iClear "Hfr". clear Hfr0.
    pose proof (alloc_pure_total _ _ _ _ _ _ Hp) as Htot. simpl in Htot.
    destruct Hp as (Hbs & Hal & Hcnt & Hok & Hown & Hperm & Hpre). apply prefix_nil_inv in Hpre. subst freed.
    pose proof (geo_bs _ _ G) as Gbs. pose proof (geo_al _ _ G) as Gal. pose proof (geo_max _ _ G) as Gmax.
    rewrite /allocator_refill Hbs Hal H0.
    assert (Hw : add64 (add64 8 al) bs = 8 + al + bs).
    { rewrite /add64 (Z.mod_small (8 + al)); [|lia]. apply Z.mod_small. lia. }
    rewrite Hw. assert (HS : (if decide (ALLOCATOR_BLOCK_SIZE < 8 + al + bs) then 8 + al + bs else ALLOCATOR_BLOCK_SIZE) = segment_size bs al).
    { rewrite /ALLOCATOR_BLOCK_SIZE /segment_size. change (4096 - 64) with 4032. destruct (decide _); lia. }
    rewrite HS. wp_bind. rewrite /malloc. change (RWords (Z.to_nat (segment_size bs al / 8))) with (seg_reg bs al).
    iApply (wp_alloc_region with "Hc"); [done|]. iIntros (a Ha0 Ha16 Hmax Hnone Hap) "Hc Hcells".
    apply lookup_union_None in Hnone as [Hn1 Hn2].
    rewrite (seg_reg_bytes _ _ G) in Hmax.
    assert (Hsa : seg_ok bs al a) by done.
    rewrite big_U_anyword (seg_split a Hsa). iDestruct "Hcells" as "((%c & %Hc & Ha) & Hj & Hbl)". wp_store.
    assert (Hpa : ptr_add a 8 = a + 8).
    { pose proof (seg_ge _ _ G a). pose proof (pad_range _ _ G a). rewrite /ptr_add /wrap Z.mod_small //. lia. }
    rewrite Hpa.
    pose proof (pad_range _ _ G a) as Hpr. pose proof (nblk_left _ _ G a) as Hnl. pose proof (nblk_fits _ _ G a Hsa) as Hnf.
    pose proof (nblk_pos _ _ G a) as Hnp.
    assert (Hsz : (if decide ((a + 8) mod al ≠ 0) then sub64 (segment_size bs al) (sub64 al ((a + 8) mod al)) else segment_size bs al)
      = segment_size bs al - padding al a).
    { rewrite (padding_eq (a + 8) a) //. rewrite (padding_eq (a + 8) a) // in Hpr Hnl.
      pose proof (Z.mod_pos_bound (a + 8) al Gal).
      destruct (decide ((a + 8) mod al ≠ 0)); [|lia]. rewrite /sub64 (Z.mod_small (al - _)); [|lia]. rewrite Z.mod_small; [done|]. lia. }
    assert (Hda : (if decide ((a + 8) mod al ≠ 0) then ptr_add (a + 8) (sub64 al ((a + 8) mod al)) else a + 8) = a + 8 + padding al a).
    { rewrite (padding_eq (a + 8) a) //. rewrite (padding_eq (a + 8) a) // in Hpr Hnf.
      pose proof (Z.mod_pos_bound (a + 8) al Gal).
      destruct (decide ((a + 8) mod al ≠ 0)); [|lia]. rewrite /sub64 (Z.mod_small (al - _)); [|lia]. rewrite /ptr_add /wrap Z.mod_small; [done|]. nia. }
    rewrite Hsz Hda. wp_bind.
    set (n := (Z.to_nat (nblk bs al a) - 1)%nat).
    assert (HSn : Z.to_nat (nblk bs al a) = S n) by lia.
    iApply (wp_carve _ n _ _ _ [] with "[Hbl] []"); [nia|lia|nia|nia|lia| |done|].
    { rewrite /blocks_of HSn big_sepL_fmap. iApply "Hbl". }
    iIntros (h') "Hfr". wp_ret. rewrite app_nil_r.
    iDestruct (freeR_pos with "Hfr") as %Hh'.
    rewrite insert_union_l. iApply ("HΦ" with "[] [] [] [] [-Hc] Hc").
    - done.
    - iPureIntro. by apply map_disjoint_insert_l.
    - iPureIntro. simpl. intros Hz. apply Hh' in Hz. by rewrite seq_S fmap_app reverse_app in Hz.
    - done.
    - iExists (a :: segs), _. iFrame "Hfr". iSplit; [iPureIntro|].
      + assert (Hok' : segs_ok bs al (a :: segs)).
        { apply segs_ok_cons; [done|done|done| |].
          - subst own. by apply seg_map_None in Hn1.
          - intros b Hb. assert (Hlb : (own ∪ cl) !! b = Some (seg_reg bs al)).
            { apply lookup_union_Some_l. subst own. by apply seg_map_lookup. }
            specialize (Hap b _ Hlb). cbv beta in Hap. by rewrite !(seg_reg_bytes _ _ G) in Hap. }
        split; [done|]. split; [done|]. split; [done|]. split; [done|]. split; [by subst own|].
        split; [|apply prefix_nil]. rewrite all_blocks_cons -Hperm /= reverse_Permutation.
        rewrite /blocks_of HSn. done.
      + simpl. iSplit; [done|]. iExists _. iFrame.
  Qed.

  Lemma wp_alloc_block t used freed own cl Φ : own ##ₘ cl →
    allocR t used freed own -∗ hctl (own ∪ cl) -∗
    (∀ p t' own', ⌜p ∉ used⌝ -∗ ⌜own' ##ₘ cl⌝ -∗ ⌜∀ q, head freed = Some q → p = q ∧ own' = own⌝ -∗
      ⌜own' = own ∧ Z.of_nat (size used) < total_blocks bs al own ∨ Z.of_nat (size used) = total_blocks bs al own ∧
        ∃ b, own !! b = None ∧ own' = <[b := seg_reg bs al]> own⌝ -∗
      allocR t' ({[p]} ∪ used) (tail freed) own' -∗ hctl (own' ∪ cl) -∗ blockR p -∗ Φ (p, t')) -∗
    wp (allocator_alloc t) Φ.
  Proof.
    iIntros (Hd) "Ha Hc HΦ". rewrite /allocator_alloc. wp_bind.
    iAssert (wp (if decide (al_free_block t = null) then allocator_refill t else mret t)
      (λ t', ∃ own' freed', ⌜own' ##ₘ cl ∧ al_free_block t' ≠ 0 ∧ freed' = freed ∧ (own' = own ∨ freed = []) ∧
        (own' = own ∨ Z.of_nat (size used) = total_blocks bs al own ∧ ∃ b, own !! b = None ∧ own' = <[b := seg_reg bs al]> own)⌝ ∗
        allocR t' used freed' own' ∗ hctl (own' ∪ cl))%I) with "[Ha Hc]" as "H".
    { destruct (decide _) as [H0|H0].
      - iApply (wp_refill with "Ha Hc"); [done|done|]. iIntros (t' a Hn Hd' Hne [-> Htot]) "Ha Hc".
        iExists _, _. iFrame. iPureIntro. split; [done|]. split; [done|]. split; [done|]. split; [by right|]. right. split; [done|]. by exists a.
      - wp_ret. iExists _, _. iFrame. iPureIntro. split; [done|]. split; [done|]. split; [done|]. split; by left. }
    iApply (wp_wand with "H"). iIntros (t') "(%own' & %freed' & (%Hd' & %Hne & -> & %Hor & %Hor2) & (%segs & %fr & %Hp & Hs & Hfr) & Hc)".
    destruct fr as [|p fr]; [by iDestruct "Hfr" as %Hz|]. simpl.
    iDestruct "Hfr" as "([%Hp1 %Hp2] & %n & Hp & Hrest & Hfr)". rewrite Hp1. wp_load. wp_ret.
    pose proof (alloc_pure_NoDup _ _ _ _ _ _ Hp) as Hnd. simpl in Hnd. apply NoDup_cons in Hnd as [Hni Hnd].
    assert (Hpu : p ∉ used). { intros Hpu. apply Hni. apply elem_of_app. right. by apply elem_of_elements. }
    iApply ("HΦ" with "[] [] [] [] [Hs Hfr] Hc [Hp Hrest]").
    - done.
    - done.
    - iPureIntro. intros q Hq. destruct Hp as (_ & _ & _ & _ & _ & _ & Hpre). destruct freed as [|q' freed]; [done|].
      simpl in Hq. injection Hq as ->. apply prefix_cons_inv_1 in Hpre. split; [done|]. by destruct Hor.
    - iPureIntro. destruct Hor2 as [->|?]; [left|by right]. pose proof (alloc_pure_total _ _ _ _ _ _ Hp) as Htot.
      simpl in Htot. split; [done|lia].
    - iExists segs, fr. iFrame. iPureIntro. destruct Hp as (H1 & H2 & H3 & H4 & H5 & H6 & H7). simpl.
      split; [done|]. split; [done|]. split; [|split; [done|split; [done|split]]].
      + pose proof (all_blocks_bytes _ _ G _ H4) as Hb. pose proof (blocks_ok_bytes _ (proj2 (proj2 H4))) as Hb2.
        rewrite -H6 app_length /= in Hb. change (length (elements used)) with (size used) in Hb. pose proof (geo_bs _ _ G).
        rewrite /add64 H3 size_union; [|set_solver]. rewrite size_singleton Z.mod_small; [simpl; lia|]. split; [lia|]. nia.
      + rewrite -H6 elements_union_singleton //. by rewrite -Permutation_middle.
      + destruct freed as [|q freed]; [apply prefix_nil|]. simpl. by apply prefix_cons_inv_2 in H7.
    - rewrite blockR_split. iFrame. iExists _. by iFrame.
  Qed.

  Lemma wp_free_block t used freed own p Φ : p ∈ used →
    allocR t used freed own -∗ blockR p -∗
    (∀ t', allocR t' (used ∖ {[p]}) (p :: freed) own -∗ Φ t') -∗
    wp (allocator_free t p) Φ.
  Proof.
    iIntros (Hpu) "Ha Hb HΦ". iDestruct (allocR_facts with "Ha") as %(_ & _ & _ & Hsz & _ & Hin & _).
    destruct (Hin _ Hpu) as (Hp0 & _). iDestruct "Ha" as "(%segs & %fr & %Hp & Hs & Hfr)".
    rewrite /allocator_free blockR_split. iDestruct "Hb" as "[(%c & %Hc & Hp) Hrest]". wp_store. wp_ret. iApply "HΦ".
    iExists segs, (p :: fr). simpl. iSplit; [iPureIntro|].
    - destruct Hp as (H1 & H2 & H3 & H4 & H5 & H6 & H7). simpl.
      assert (Hu : used = {[p]} ∪ used ∖ {[p]}) by (apply union_difference_singleton_L; done).
      assert (Hsu : size used = S (size (used ∖ {[p]}))).
      { transitivity (size ({[p]} ∪ used ∖ {[p]})); [exact (f_equal size Hu)|]. rewrite size_union; [|set_solver]. by rewrite size_singleton. }
      assert (Helt : elements used ≡ₚ p :: elements (used ∖ {[p]})).
      { transitivity (elements ({[p]} ∪ used ∖ {[p]})); [apply reflexive_eq; exact (f_equal elements Hu)|]. apply elements_union_singleton. set_solver. }
      pose proof (geo_bs _ _ G).
      split; [done|]. split; [done|]. split; [|split; [done|split; [done|split]]].
      + rewrite /sub64 H3 Z.mod_small; [simpl; lia|]. split; [lia|]. nia.
      + rewrite -H6 Helt -Permutation_middle. done.
      + by apply prefix_cons.
    - iFrame "Hs". iSplit; [iPureIntro; split; [done|lia]|]. iExists _. iFrame.
  Qed.

  Lemma wp_mem_size {A} (f : nat → M A) (ks : list Z) (R : iProp) Φ :
    (R ⊢ [∗ list] k ∈ ks, ∃ c, k ↦ c) →
    R -∗ (∀ n, ⌜(length ks ≤ n)%nat⌝ -∗ R -∗ wp (f n) Φ) -∗ wp (λ m, f (size m) m) Φ.
  Proof.
    iIntros (HR) "HR Hwp". rewrite wp_unseal. iIntros (m) "Hm".
    iAssert (⌜∀ i k, ks !! i = Some k → is_Some (m !! k)⌝)%I as %Hin.
    { iIntros (i k Hk). iDestruct (HR with "HR") as "HR". iDestruct (big_sepL_lookup with "HR") as (c) "Hc"; [done|].
      iDestruct (memI_lookup with "Hm Hc") as %?. by eauto. }
    iAssert (⌜NoDup ks⌝)%I as %Hnd.
    { iDestruct (HR with "HR") as "HR". iClear "Hwp Hm". clear Hin HR. iInduction ks as [|k ks] "IH"; [iPureIntro; constructor|].
      simpl. iDestruct "HR" as "[(%c & Hk) HR]". rewrite NoDup_cons. iSplit; [|by iApply "IH"].
      iIntros ([i Hi]%elem_of_list_lookup). iDestruct (big_sepL_lookup with "HR") as (c') "Hc"; [done|].
      iApply (mapsto_excl with "Hk Hc"). }
    iDestruct ("Hwp" $! (size m) with "[] HR") as "Hwp".
    { iPureIntro. rewrite -(size_list_to_set (C:=gset Z)) // -(size_dom m). apply subseteq_size.
      intros k. rewrite elem_of_list_to_set elem_of_dom. intros [i Hi]%elem_of_list_lookup. by eapply Hin. }
    by iApply "Hwp".
  Qed.

  Lemma segsR_heads segs h : segsR segs h ⊢ [∗ list] k ∈ segs, ∃ c, k ↦ c.
  Proof.
    revert h. induction segs as [|a segs IH]; intros h; simpl; [by iIntros "_"|].
    iIntros "(_ & %n & Ha & _ & Hs)". iSplitL "Ha"; [by iExists _|]. by iApply IH.
  Qed.

  Lemma wp_reset_loop segs : ∀ fuel h cl Φ, (length segs ≤ fuel)%nat → segs_ok bs al segs → seg_map bs al segs ##ₘ cl →
    segsR segs h -∗ ([∗ list] p ∈ all_blocks bs al segs, blockR p) -∗ hctl (seg_map bs al segs ∪ cl) -∗
    (hctl cl -∗ Φ tt) -∗ wp (allocator_reset_loop fuel h) Φ.
  Proof.
    induction segs as [|a segs IH]; intros fuel h cl Φ Hf Hok Hd; iIntros "Hs Hb Hc HΦ".
    - simpl. iDestruct "Hs" as %->. destruct fuel; simpl; wp_ret; iApply "HΦ"; rewrite /seg_map /= left_id_L; done.
    - destruct fuel as [|fuel]; [simpl in Hf; lia|]. cbn [allocator_reset_loop segsR]. iDestruct "Hs" as "(-> & %n & Ha & Hj & Hs)".
      apply segs_ok_inv in Hok as (Hok & Ha & Hn). rewrite all_blocks_cons big_sepL_app.
      iDestruct "Hb" as "[Hb Hbs]". rewrite decide_False; [|rewrite /null; destruct Ha; lia]. wp_load. wp_bind.
      rewrite seg_map_cons in Hd |- *. apply map_disjoint_insert_l in Hd as [Hd1 Hd2].
      iApply (wp_free with "Hc [Ha Hj Hb]"); [destruct Ha; lia| | |].
      { apply lookup_union_Some_l, lookup_insert. }
      { iAssert ([∗ list] k ∈ region_cells a (seg_reg bs al), anyword k)%I with "[Ha Hj Hb]" as "H".
        { rewrite (seg_split a Ha). iFrame. iExists _. by iFrame. }
        iApply (big_sepL_mono with "H"). iIntros (i k _) "(%c & _ & H)". by iExists c. }
      iIntros "Hc". rewrite -insert_union_l delete_insert; [|apply lookup_union_None; split; [by apply seg_map_None|done]].
      iApply (IH with "Hs Hbs Hc HΦ"); [simpl in Hf; lia|done|done].
  Qed.

  Lemma wp_allocator_done t used freed own cl Φ : own ##ₘ cl →
    allocR t used freed own -∗ ([∗ set] p ∈ used, blockR p) -∗ hctl (own ∪ cl) -∗
    (∀ t', allocR t' ∅ [] ∅ -∗ hctl cl -∗ Φ t') -∗
    wp (allocator_done t) Φ.
  Proof.
    iIntros (Hd) "(%segs & %fr & %Hp & Hs & Hfr) Hu Hc HΦ".
    destruct Hp as (H1 & H2 & H3 & H4 & H5 & H6 & H7). subst own.
    rewrite /allocator_done /allocator_reset.
    iApply (wp_mem_size (λ n, allocator_reset_loop n (al_used_segment t) ≫=
      λ _, mret (Allocator 0 0 (al_block_size t) (al_align_size t) 0)) segs _ with "Hs").
    { apply segsR_heads. }
    iIntros (n Hn) "Hs". wp_bind. iApply (wp_reset_loop with "Hs [Hfr Hu] Hc"); [done|done|done| |].
    { rewrite -H6 big_sepL_app. iSplitL "Hfr".
      - clear -G. generalize (al_free_block t). intros h. iInduction fr as [|p fr] "IH" forall (h); [done|]. simpl.
        iDestruct "Hfr" as "(_ & %n & Hp & Hr & Hfr)". iSplitL "Hp Hr"; [|by iApply "IH"].
        rewrite blockR_split. iFrame. iExists _. by iFrame.
      - by rewrite big_sepS_elements. }
    iIntros "Hc". wp_ret. iApply ("HΦ" with "[] Hc"). iExists [], []. iSplit; [|by simpl].
    iPureIntro. split; [done|]. split; [done|]. split; [done|]. split; [|done].
    split; [constructor|]. split; [constructor|]. split; intros ? ? ?; done.
  Qed.

  Lemma allocR_init t : al_block_size t = bs → al_align_size t = al → al_count t = 0 →
    al_free_block t = 0 → al_used_segment t = 0 → ⊢ allocR t ∅ [] ∅.
  Proof.
    intros H1 H2 H3 H4 H5. iExists [], []. iSplit; [|by simpl].
    iPureIntro. split; [done|]. split; [done|]. split; [done|]. split; [|done].
    split; [constructor|]. split; [constructor|]. split; intros ? ? ?; done.
  Qed.
End seg.
