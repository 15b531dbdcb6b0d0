(** * Proofs for tommy_arrayblk and tommy_arrayblkof *)
From Verif Require Export ArrayOfProof.
Global Open Scope Z_scope.

(** Elements in a block; opaque, because it is a large [nat]. *)
Definition BS : nat := Z.to_nat 4096.
Lemma BS_Z : Z.of_nat BS = 4096.
Proof. rewrite /BS Z2Nat.id //. Qed.
Lemma BS_eq : Z.to_nat 4096 = BS.
Proof. done. Qed.
Global Opaque BS.

(** The blocks of elements *)
Definition bl (ptrs : list Z) : list (Z * nat) := (λ p, (p, BS)) <$> ptrs.
Lemma bl_fst ptrs : (bl ptrs).*1 = ptrs.
Proof. rewrite /bl -list_fmap_compose. apply list_fmap_id. Qed.
Lemma bl_app l k : bl (l ++ k) = bl l ++ bl k.
Proof. apply fmap_app. Qed.
Lemma bl_length w kk ptrs : Z.of_nat (length (layout w kk (bl ptrs))) = 4096 * Z.of_nat (length ptrs).
Proof.
  pose proof BS_Z. induction ptrs as [|p ptrs IH]; [done|].
  change (bl (p :: ptrs)) with ([(p, BS)] ++ bl ptrs). rewrite layout_app layout_single app_length fmap_length seq_length.
  cbn [length snd]. lia.
Qed.
Lemma bl_lookup w kk ptrs q r p : ptrs !! q = Some p → (r < BS)%nat →
  layout w kk (bl ptrs) !! (BS * q + r)%nat = Some (p + stride w kk * Z.of_nat r).
Proof.
  revert q. induction ptrs as [|p' ptrs IH]; intros q Hq Hr; [done|].
  change (bl (p' :: ptrs)) with ([(p', BS)] ++ bl ptrs). rewrite layout_app layout_single.
  destruct q as [|q]; simpl in Hq.
  - injection Hq as ->. replace (BS * 0 + r)%nat with r by lia.
    rewrite lookup_app_l; [|rewrite fmap_length seq_length; done].
    rewrite list_lookup_fmap lookup_seq_lt; [done|done].
  - rewrite lookup_app_r; [|rewrite fmap_length seq_length; simpl; lia].
    rewrite fmap_length seq_length. simpl. rewrite -(IH q Hq Hr). f_equal. lia.
Qed.

Lemma stride_ge w kk : (1 ≤ kk)%nat → 1 ≤ stride w kk.
Proof. rewrite /stride. destruct w; simpl; lia. Qed.

Section blocked.
  Context `{!memG}.
  Hypothesis Henv : memG_env.

  Lemma elem1 a v : elemP true a [v] ⊣⊢ a ↦ W v.
  Proof. rewrite /elemP big_sepL_singleton /= Z.add_0_r //. Qed.

  (** The table of the pointers to the blocks; the entries not used are zero. *)
  Definition ptab (P ptrs : list Z) : iProp := [∗ list] i ↦ a ∈ P, a ↦ W (default 0 (ptrs !! i)).

  Lemma ptab_zero P : zeros true 1 P ⊢ ptab P [].
  Proof. rewrite /zeros /ptab. apply big_sepL_mono. intros i a _. rewrite elem1 //. Qed.
  Lemma ptab_grow P P' ptrs : (length ptrs ≤ length P)%nat → ptab P ptrs -∗ zeros true 1 P' -∗ ptab (P ++ P') ptrs.
  Proof.
    iIntros (Hl) "H1 H2". rewrite /ptab big_sepL_app. iFrame "H1". rewrite /zeros.
    iApply (big_sepL_mono with "H2"). intros i a _. rewrite elem1 lookup_ge_None_2 //. lia.
  Qed.
  Lemma ptab_raw P ptrs : ptab P ptrs ⊢ [∗ list] a ∈ P, rawelem true 1 a.
  Proof.
    rewrite /ptab. apply big_sepL_mono. intros i a _. iIntros "H". iExists [_]. iSplit; [done|]. by rewrite elem1.
  Qed.

  Lemma wp_block_get block P c own ptrs i p Φ : ptrs !! i = Some p → (length ptrs ≤ c)%nat →
    array_shell block 1 P c own -∗ ptab P ptrs -∗ (ptab P ptrs -∗ Φ p) -∗ wp (array_get block (Z.of_nat i)) Φ.
  Proof.
    iIntros (Hp Hc) "#Hsh Ht HΦ". pose proof (lookup_lt_Some _ _ _ Hp) as Hi.
    iDestruct (array_shell_facts with "Hsh") as %(Hl & _).
    destruct (lookup_lt_is_Some_2 P i) as [a Ha]; [lia|].
    rewrite /array_get. wp_bind. iApply (wp_array_ref with "Hsh"); [|done|]; [lia|]. iIntros "_".
    iDestruct (big_sepL_lookup_acc with "Ht") as "[Ha Ht]"; [done|]. rewrite Hp /=.
    iApply (wp_load with "Ha"). iIntros "Ha". iApply "HΦ". by iApply "Ht".
  Qed.

  Lemma wp_block_push block P c own ptrs p Φ : (length ptrs < c)%nat →
    array_shell block 1 P c own -∗ ptab P ptrs -∗ (ptab P (ptrs ++ [p]) -∗ Φ tt) -∗
    wp (array_set block (Z.of_nat (length ptrs)) p) Φ.
  Proof.
    iIntros (Hc) "#Hsh Ht HΦ". iDestruct (array_shell_facts with "Hsh") as %(Hl & _).
    destruct (lookup_lt_is_Some_2 P (length ptrs)) as [a Ha]; [lia|].
    rewrite /array_set. wp_bind. iApply (wp_array_ref with "Hsh"); [|done|]; [lia|]. iIntros "_".
    iDestruct (big_sepL_lookup_acc_impl with "Ht") as "[Ha Ht]"; [done|].
    iApply (wp_store with "Ha"); [done|]. iIntros "Ha". iApply "HΦ". iApply ("Ht" with "[] [Ha]").
    - iIntros "!>" (k y _ Hk) "H". destruct (decide (k < length ptrs)%nat).
      + rewrite lookup_app_l //.
      + rewrite (lookup_ge_None_2 ptrs); [|lia]. rewrite (lookup_ge_None_2 (ptrs ++ [p])) //. rewrite app_length /=. lia.
    - rewrite lookup_app_r // Nat.sub_diag //.
  Qed.

  Section alloc.
    Variable w : bool.
    Variable kk : nat.
    Variable al : M Z.
    Hypothesis Hkk : (1 ≤ kk)%nat.
    Hypothesis wp_al : ∀ (own cl : gmap Z region) Φ, own ##ₘ cl →
      hctl (own ∪ cl) -∗
      (∀ a, ⌜0 < a⌝ -∗ ⌜a + stride w kk * 4096 < 2 ^ 64⌝ -∗ ⌜own !! a = None⌝ -∗
        ⌜∀ b s, (own ∪ cl) !! b = Some s → apart a (stride w kk * 4096) b (region_bytes s)⌝ -∗
        ⌜<[a := mkreg w kk BS]> own ##ₘ cl⌝ -∗ hctl (<[a := mkreg w kk BS]> own ∪ cl) -∗
        zeros w kk (layout w kk (bl [a])) -∗ Φ a) -∗
      wp al Φ.

    Fixpoint gen_alloc (n : nat) (block : array) (block_mac : Z) : M unit :=
      match n with
      | O => mret tt
      | S n => ptr ← al; array_set block block_mac ptr;; gen_alloc n block (add64 block_mac 1)
      end.

    (** The pointers [ptrs] own the blocks of [bm ptrs]. *)
    Definition bm (ptrs : list Z) : gmap Z region := blkmap w kk (bl ptrs).
    Definition bok (own1 : gmap Z region) (ptrs : list Z) : Prop :=
      NoDup ptrs ∧ own1 ##ₘ bm ptrs ∧ blocks_ok (own1 ∪ bm ptrs).

    Lemma bm_snoc ptrs p : p ∉ ptrs → bm (ptrs ++ [p]) = <[p := mkreg w kk BS]> (bm ptrs).
    Proof. intros Hp. rewrite /bm bl_app. apply (blkmap_snoc w kk (bl ptrs) (p, BS)). by rewrite bl_fst. Qed.
    Lemma bm_None ptrs p : bm ptrs !! p = None ↔ p ∉ ptrs.
    Proof. rewrite /bm blkmap_None bl_fst //. Qed.

    Lemma wp_gen_alloc block P c own1 cl n : ∀ ptrs Φ,
      (length ptrs + n = c)%nat → Z.of_nat c < 2 ^ 64 → bok own1 ptrs → own1 ∪ bm ptrs ##ₘ cl →
      array_shell block 1 P c own1 -∗ ptab P ptrs -∗ hctl (own1 ∪ bm ptrs ∪ cl) -∗
      (∀ ptrs', ⌜length ptrs' = n⌝ -∗ ⌜bok own1 (ptrs ++ ptrs')⌝ -∗ ⌜own1 ∪ bm (ptrs ++ ptrs') ##ₘ cl⌝ -∗
        ⌜own1 ∪ bm ptrs ⊆ own1 ∪ bm (ptrs ++ ptrs')⌝ -∗
        ptab P (ptrs ++ ptrs') -∗ zeros w kk (layout w kk (bl ptrs')) -∗ hctl (own1 ∪ bm (ptrs ++ ptrs') ∪ cl) -∗ Φ tt) -∗
      wp (gen_alloc n block (Z.of_nat (length ptrs))) Φ.
    Proof.
      induction n as [|n IH]; iIntros (ptrs Φ Hn Hc (Hnd & Hd1 & Hbk) Hd) "#Hsh Ht Hc HΦ"; simpl.
      - wp_ret. iApply ("HΦ" $! [] with "[//] [] [] [] [Ht] [] [Hc]"); rewrite ?right_id_L //; by rewrite /zeros.
      - wp_bind. iApply (wp_al with "Hc"); [done|]. iIntros (a Ha Hab Hna Hap Hd') "Hc Hz".
        apply lookup_union_None in Hna as [Hna1 Hna2]. apply bm_None in Hna2.
        assert (Heq : <[a := mkreg w kk BS]> (own1 ∪ bm ptrs) = own1 ∪ bm (ptrs ++ [a])).
        { rewrite bm_snoc // insert_union_r //. }
        rewrite Heq in Hd' |- *.
        wp_bind. iApply (wp_block_push with "Hsh Ht"); [lia|]. iIntros "Ht".
        assert (add64 (Z.of_nat (length ptrs)) 1 = Z.of_nat (length (ptrs ++ [a]))) as ->.
        { rewrite app_length /add64 /wrap Z.mod_small /=; lia. }
        iApply (IH with "Hsh Ht Hc"); [rewrite app_length /=; lia|done| |done|].
        + split; [|split].
          * apply NoDup_app. split; [done|]. split; [|apply NoDup_singleton]. set_solver.
          * rewrite bm_snoc //. by apply map_disjoint_insert_r_2.
          * rewrite -Heq. apply blocks_ok_insert; [done|done| | |].
            -- rewrite mkreg_bytes BS_Z //.
            -- apply lookup_union_None. split; [done|by apply bm_None].
            -- intros b s Hb. rewrite mkreg_bytes BS_Z. apply Hap. by apply lookup_union_Some_l.
        + iIntros (ptrs' Hl Hb2 Hd2 Hs2) "Ht Hz' Hc". rewrite -assoc_L in Hb2 Hd2 Hs2 |- *.
          iApply ("HΦ" $! (a :: ptrs') with "[] [//] [//] [] Ht [Hz Hz'] Hc").
          * iPureIntro. simpl. lia.
          * iPureIntro. etrans; [|exact Hs2]. rewrite -Heq. apply insert_subseteq, lookup_union_None.
            split; [done|by apply bm_None].
          * change (a :: ptrs') with ([a] ++ ptrs'). rewrite bl_app layout_app /zeros big_sepL_app. iFrame.
    Qed.

    (** The memory of a blocked array with [c] elements. *)
    Definition blk_shell (block : array) (A : list Z) (c : nat) (own : gmap Z region) : iProp :=
      ∃ P own1 ptrs, array_shell block 1 P (length ptrs) own1 ∗ ptab P ptrs ∗
        ⌜bok own1 ptrs⌝ ∗ ⌜own = own1 ∪ bm ptrs⌝ ∗ ⌜A = layout w kk (bl ptrs)⌝ ∗
        ⌜Z.of_nat c ≤ 4096 * Z.of_nat (length ptrs) < Z.of_nat c + 4096⌝.

    Lemma wp_blk_init cl Φ :
      hctl cl -∗
      (∀ block A own, ⌜own ##ₘ cl⌝ -∗ blk_shell block A 0 own -∗ zeros w kk A -∗ hctl (own ∪ cl) -∗ Φ block) -∗
      wp array_init Φ.
    Proof.
      iIntros "Hc HΦ". iApply (wp_array_init with "Hc"); [done|]. iIntros (block P own Hd) "#Hsh Hz Hc".
      iDestruct (array_shell_facts with "Hsh") as %(_ & _ & _ & _ & _ & (Hbk & _ & _) & _).
      iApply ("HΦ" $! block [] own with "[//] [Hz] [] Hc"); [|by rewrite /zeros].
      iExists P, own, []. iFrame "Hsh". rewrite ptab_zero. iFrame "Hz". rewrite /bok /bm /blkmap /= right_id_L.
      iPureIntro. split_and!; try done; [constructor|apply map_disjoint_empty_r].
    Qed.

    (** The common part of the two functions grow. *)
    Definition gen_grow {S} (fin : array → Z → S) (block : array) (count n : Z) : M S :=
      if decide (count >= n) then mret (fin block count) else
      let block_max := sub64 (add64 n 4096) 1 / 4096 in
      let block_mac := array_size block in
      if decide (block_mac < block_max) then
        block' ← array_grow block block_max;
        gen_alloc (Z.to_nat (block_max - block_mac)) block' block_mac;;
        mret (fin block' n)
      else mret (fin block n).

    Lemma wp_blk_grow {S} (fin : array → Z → S) block A c own cl n Φ : own ##ₘ cl → 0 ≤ n ≤ 2 ^ 64 - 4096 →
      blk_shell block A c own -∗ hctl (own ∪ cl) -∗
      (∀ block' A' own', ⌜own ⊆ own'⌝ -∗ ⌜own' ##ₘ cl⌝ -∗ blk_shell block' (A ++ A') (c `max` Z.to_nat n) own' -∗
        zeros w kk A' -∗ hctl (own' ∪ cl) -∗ Φ (fin block' (Z.of_nat (c `max` Z.to_nat n)))) -∗
      wp (gen_grow fin block (Z.of_nat c) n) Φ.
    Proof.
      iIntros (Hd Hn) "(%P & %own1 & %ptrs & #Hsh & Ht & %Hbok & -> & -> & %Hc) Hc HΦ". rewrite /gen_grow.
      pose proof Hbok as (Hnd & Hd1 & Hbk).
      destruct (decide (Z.of_nat c >= n)) as [Hge|Hlt].
      { wp_ret. replace (c `max` Z.to_nat n)%nat with c by lia.
        iApply ("HΦ" $! block [] with "[//] [//] [Ht] [] Hc"); [|by rewrite /zeros].
        iExists P, own1, ptrs. iFrame "Hsh Ht". rewrite right_id_L. done. }
      replace (c `max` Z.to_nat n)%nat with (Z.to_nat n) by lia. rewrite Z2Nat.id; [|lia].
      assert (Hbmx : sub64 (add64 n 4096) 1 = n + 4095).
      { rewrite /sub64 /add64 /wrap Zminus_mod_idemp_l Z.mod_small; lia. }
      cbv zeta. rewrite Hbmx. set (mx := (n + 4095) / 4096) in *.
      assert (Hmx : n ≤ 4096 * mx < n + 4096).
      { rewrite /mx. pose proof (Z.div_mod (n + 4095) 4096). pose proof (Z.mod_pos_bound (n + 4095) 4096). lia. }
      iDestruct (array_shell_facts with "Hsh") as %(HlP & _ & Hsz & _). rewrite Hsz.
      destruct (decide (Z.of_nat (length ptrs) < mx)) as [Hmore|Hsame]; last first.
      { wp_ret. iApply ("HΦ" $! block [] with "[//] [//] [Ht] [] Hc"); [|by rewrite /zeros].
        iExists P, own1, ptrs. iFrame "Hsh Ht". rewrite right_id_L. iPureIntro. split_and!; try done; lia. }
      wp_bind. rewrite -assoc_L.
      apply map_disjoint_union_l in Hd as [Hd2 Hd3].
      iApply (wp_array_grow with "Hsh Hc"); [done| |lia|].
      { apply map_disjoint_union_r. done. }
      replace (length ptrs `max` Z.to_nat mx)%nat with (Z.to_nat mx) by lia.
      iIntros (block' P' own1' Hsub Hd' Hbx) "#Hsh' Hz Hc". apply map_disjoint_union_r in Hd' as [Hd4 Hd5].
      iDestruct (ptab_grow with "Ht Hz") as "Ht"; [done|]. rewrite assoc_L.
      wp_bind. iApply (wp_gen_alloc with "Hsh' Ht Hc"); [lia|lia| | |].
      { split; [done|]. split; [done|]. apply Hbx; [apply map_union_subseteq_l|done]. }
      { apply map_disjoint_union_l. done. }
      iIntros (ptrs' Hl Hbok' Hd6 Hs6) "Ht Hz Hc". wp_ret.
      iApply ("HΦ" $! block' (layout w kk (bl ptrs')) (own1' ∪ bm (ptrs ++ ptrs')) with "[] [//] [Ht] Hz Hc").
      - iPureIntro. etrans; [|exact Hs6]. by apply map_union_mono_r.
      - iExists (P ++ P'), own1', (ptrs ++ ptrs'). iFrame "Ht". rewrite app_length Hl.
        replace (length ptrs + Z.to_nat (mx - Z.of_nat (length ptrs)))%nat with (Z.to_nat mx) by lia. iFrame "Hsh'".
        iPureIntro. split_and!; try done; [by rewrite bl_app layout_app|lia..].
    Qed.

    Lemma wp_blk_ref block A c own (i : nat) a off Φ : (i < c)%nat → A !! i = Some a →
      off mod 2 ^ 64 = (stride w kk * (Z.of_nat i mod 4096)) mod 2 ^ 64 →
      blk_shell block A c own -∗ (blk_shell block A c own -∗ Φ a) -∗
      wp (p ← array_get block (Z.of_nat i / 4096); mret (ptr_add p off)) Φ.
    Proof.
      iIntros (Hi Ha Hoff) "(%P & %own1 & %ptrs & #Hsh & Ht & %Hbok & -> & -> & %Hc) HΦ".
      pose proof BS_Z as HBS. set (q := (i / BS)%nat). set (r := (i mod BS)%nat).
      assert (Hqr : i = (BS * q + r)%nat) by (apply Nat.div_mod; lia).
      assert (Hr : (r < BS)%nat) by (apply Nat.mod_upper_bound; lia).
      destruct (lookup_lt_is_Some_2 ptrs q) as [p Hp]; [nia|].
      assert (Z.of_nat i / 4096 = Z.of_nat q) as -> by (rewrite -HBS -Nat2Z.inj_div //).
      assert (Hrz : Z.of_nat i mod 4096 = Z.of_nat r) by (rewrite -HBS -Nat2Z.inj_mod //).
      rewrite Hrz in Hoff.
      wp_bind. iApply (wp_block_get with "Hsh Ht"); [done|done|]. iIntros "Ht". wp_ret.
      rewrite Hqr (bl_lookup _ _ _ _ _ _ Hp Hr) in Ha. injection Ha as <-.
      rewrite (ptr_add_mod _ _ _ Hoff).
      pose proof Hbok as (Hnd & Hd1 & [Hbk _]).
      destruct (Hbk p (mkreg w kk BS)) as [Hp0 Hp1].
      { apply lookup_union_Some_r; [done|]. apply (blkmap_lookup w kk (bl ptrs) (p, BS)); [by rewrite bl_fst|].
        apply elem_of_list_fmap. exists p. split; [done|]. by eapply elem_of_list_lookup_2. }
      rewrite mkreg_bytes HBS in Hp1.
      pose proof (stride_ge w kk Hkk).
      rewrite /ptr_add /wrap Z.mod_small; [|nia]. iApply "HΦ". iExists P, own1, ptrs. iFrame "Hsh Ht". done.
    Qed.

    Lemma wp_blocks_free block P c own1 cl ptrs0 n : ∀ ptrs i Φ,
      (i + n)%nat = length ptrs0 → (length ptrs0 ≤ c)%nat → Z.of_nat c < 2 ^ 64 → ptrs = drop i ptrs0 → bok own1 ptrs → own1 ∪ bm ptrs ##ₘ cl →
      array_shell block 1 P c own1 -∗ ptab P ptrs0 -∗ hctl (own1 ∪ bm ptrs ∪ cl) -∗
      ([∗ list] p ∈ ptrs, [∗ list] k ∈ region_cells p (mkreg w kk BS), ∃ c, k ↦ c) -∗
      (ptab P ptrs0 -∗ hctl (own1 ∪ cl) -∗ Φ tt) -∗
      wp (blocks_free n block (Z.of_nat i)) Φ.
    Proof.
      induction n as [|n IH]; iIntros (ptrs i Φ Hi Hl Hc Hptrs (Hnd & Hd1 & Hbk) Hd) "#Hsh Ht Hc Hraw HΦ"; simpl.
      - wp_ret. rewrite Hptrs drop_ge; [|lia]. rewrite /bm /blkmap /= right_id_L. iApply ("HΦ" with "Ht Hc").
      - destruct (lookup_lt_is_Some_2 ptrs0 i) as [p Hp]; [lia|]. rewrite (drop_S _ _ _ Hp) in Hptrs. subst ptrs.
        set (ptrs := drop (S i) ptrs0) in *.
        wp_bind. iApply (wp_block_get with "Hsh Ht"); [done|done|]. iIntros "Ht".
        iDestruct "Hraw" as "[Hp Hraw]". apply NoDup_cons in Hnd as [Hpn Hnd].
        assert (Hbm : bm (p :: ptrs) = <[p := mkreg w kk BS]> (bm ptrs)) by done.
        rewrite Hbm in Hd1 Hbk Hd |- *. apply map_disjoint_insert_r in Hd1 as [Hp1 Hd1].
        pose proof (proj2 (bm_None ptrs p) Hpn) as Hpm.
        assert (Hlk : (own1 ∪ <[p := mkreg w kk BS]> (bm ptrs)) !! p = Some (mkreg w kk BS)).
        { apply lookup_union_Some_raw. right. split; [done|]. apply lookup_insert. }
        destruct (proj1 Hbk _ _ Hlk) as [Hp0 _].
        apply map_disjoint_union_l in Hd as [Hd2 Hd3]. apply map_disjoint_insert_l in Hd3 as [Hpc Hd3].
        wp_bind. iApply (wp_free with "Hc Hp"); [lia|by apply lookup_union_Some_l|]. iIntros "Hc".
        rewrite -insert_union_r // delete_union delete_insert; [|by apply lookup_union_None]. rewrite (delete_notin cl) //.
        assert (add64 (Z.of_nat i) 1 = Z.of_nat (S i)) as -> by (rewrite /add64 /wrap Z.mod_small; lia).
        iApply (IH ptrs with "Hsh Ht Hc Hraw HΦ"); [lia|done|done|done| |].
        + split; [done|]. split; [done|]. eapply blocks_ok_subseteq; [|exact Hbk]. apply map_union_mono_l.
          by apply insert_subseteq.
        + by apply map_disjoint_union_l.
    Qed.

    Lemma wp_blk_done block A c own cl Φ : own ##ₘ cl →
      blk_shell block A c own -∗ ([∗ list] a ∈ A, rawelem w kk a) -∗ hctl (own ∪ cl) -∗ (hctl cl -∗ Φ tt) -∗
      wp (blocks_free (Z.to_nat (array_size block)) block 0;; array_done block) Φ.
    Proof.
      iIntros (Hd) "(%P & %own1 & %ptrs & #Hsh & Ht & %Hbok & -> & -> & %Hc) Hraw Hc HΦ".
      iDestruct (array_shell_facts with "Hsh") as %(HlP & HP & -> & _). change (stride true 1) with 8 in HP.
      rewrite Nat2Z.id. wp_bind. change 0 with (Z.of_nat 0).
      iApply (wp_blocks_free block P (length ptrs) own1 cl ptrs with "Hsh Ht Hc [Hraw]"); [done|done|lia|done|done|done| |].
      { rewrite /layout big_sepL_bind /bl big_sepL_fmap. iApply (big_sepL_mono with "Hraw"). intros i p _. simpl.
        apply ArrayHist.region_raw. }
      iIntros "Ht Hc". apply map_disjoint_union_l in Hd as [Hd2 Hd3].
      iApply (wp_array_done with "Hsh [Ht] Hc"); [done| |done]. by iApply ptab_raw.
    Qed.

    Lemma blk_facts block A c own : blk_shell block A c own ⊢
      ⌜(c ≤ length A)%nat ∧ stride w kk * Z.of_nat (length A) < 2 ^ 64 ∧
       ∃ blocks, array_size block = blocks ∧ Z.of_nat c ≤ 4096 * blocks < Z.of_nat c + 4096 ∧
         0 ≤ blocks ≤ ar_bucket_max block ∧ (ar_bucket_max block = 64 ∨ ar_bucket_max block < 2 * blocks) ∧
         array_memory_usage block = (8 * ar_bucket_max block)%Z ∧
         heap_bytes own = (8 * ar_bucket_max block + stride w kk * 4096 * blocks)%Z ∧
         0 ≤ heap_bytes own < 2 ^ 64 ∧
       afacts (stride w kk) A own⌝.
    Proof.
      iIntros "(%P & %own1 & %ptrs & #Hsh & Ht & %Hbok & -> & -> & %Hc)".
      iDestruct (array_shell_facts with "Hsh") as %(HlP & HP & Hsz & Hus & (Hi1 & Hi2 & Hi3 & Hi4) & (Hbk1 & _) & _).
      destruct Hbok as (Hnd & Hd1 & Hbk). iPureIntro.
      pose proof (bl_length w kk ptrs) as Hl.
      assert (Hby : heap_bytes (own1 ∪ bm ptrs) = 8 * ar_bucket_max block + stride w kk * 4096 * Z.of_nat (length ptrs)).
      { rewrite heap_bytes_union // -Hus Hi4 /bm layout_bytes; [|by rewrite bl_fst]. rewrite Hl. lia. }
      pose proof (blocks_ok_bytes _ Hbk) as Hbb. pose proof (blocks_ok_bytes _ Hbk1) as Hbb1.
      pose proof (stride_ge w kk Hkk).
      split; [lia|]. split; [rewrite Hl; lia|]. exists (Z.of_nat (length ptrs)).
      do 7 (split; [done || lia|]).
      apply (layout_facts w kk (own1 ∪ bm ptrs)); [lia|done|by rewrite bl_fst|].
      intros p Hp. apply lookup_union_Some_r; [done|]. pose proof Hp as (p' & -> & _)%elem_of_list_fmap.
      apply (blkmap_lookup w kk (bl ptrs) (p', BS)); [by rewrite bl_fst|done].
    Qed.
  End alloc.
End blocked.

(** ** tommy_arrayblk *)
Definition arrayblk_inv (st : arrayblk) (n k : Z) : Prop :=
  ab_count st = n ∧
  ∃ blocks cap, array_size (ab_block st) = blocks ∧ n ≤ 4096 * blocks < n + 4096 ∧ 0 ≤ blocks ≤ cap ∧ (cap = 64 ∨ cap < 2 * blocks) ∧
    arrayblk_memory_usage st = 8 * cap + 8 * 4096 * blocks.

Section arrayblk.
  Context `{!memG}.
  Hypothesis Henv : memG_env.

  Definition arrayblk_shell (st : arrayblk) (kk : nat) (A : list Z) (c : nat) (own : gmap Z region) : iProp :=
    ⌜kk = 1%nat ∧ ab_count st = Z.of_nat c⌝ ∗ blk_shell true kk (ab_block st) A c own.

  Lemma wp_arrayblk_al (own cl : gmap Z region) Φ : own ##ₘ cl →
    hctl (own ∪ cl) -∗
    (∀ a, ⌜0 < a⌝ -∗ ⌜a + stride true 1 * 4096 < 2 ^ 64⌝ -∗ ⌜own !! a = None⌝ -∗
      ⌜∀ b s, (own ∪ cl) !! b = Some s → apart a (stride true 1 * 4096) b (region_bytes s)⌝ -∗
      ⌜<[a := mkreg true 1 BS]> own ##ₘ cl⌝ -∗ hctl (<[a := mkreg true 1 BS]> own ∪ cl) -∗
      zeros true 1 (layout true 1 (bl [a])) -∗ Φ a) -∗
    wp (calloc_words ARRAYBLK_SIZE) Φ.
  Proof.
    iIntros (Hd) "Hc HΦ". change ARRAYBLK_SIZE with 4096.
    iApply (wp_calloc_words with "Hc"); [done|done|done|]. rewrite BS_eq.
    iIntros (a) "H1 H2 H3 H4 H5 H6 Hz". iApply ("HΦ" with "H1 H2 H3 H4 H5 H6 [Hz]").
    change (bl [a]) with [(a, BS)]. by rewrite layout_single.
  Qed.

  Lemma arrayblk_alloc_gen n block mac : arrayblk_alloc n block mac = gen_alloc (calloc_words ARRAYBLK_SIZE) n block mac.
  Proof. done. Qed.

  Lemma wp_arrayblk_init (k : Z) cl Φ : 1 ≤ k < 2 ^ 64 →
    hctl cl -∗
    (∀ st A own, ⌜own ##ₘ cl⌝ -∗ arrayblk_shell st 1 A 0 own -∗ zeros true 1 A -∗ hctl (own ∪ cl) -∗ Φ st) -∗
    wp arrayblk_init Φ.
  Proof.
    iIntros (_) "Hc HΦ". rewrite /arrayblk_init. wp_bind. iApply (wp_blk_init Henv true 1 with "Hc").
    iIntros (block A own Hd) "Hsh Hz Hc". wp_ret. iApply ("HΦ" with "[//] [Hsh] Hz Hc"). by iFrame.
  Qed.

  Lemma wp_arrayblk_grow st kk A c own cl n Φ : own ##ₘ cl → 0 ≤ n ≤ 2 ^ 64 - 4096 →
    arrayblk_shell st kk A c own -∗ hctl (own ∪ cl) -∗
    (∀ st' A' own', ⌜own ⊆ own'⌝ -∗ ⌜own' ##ₘ cl⌝ -∗ arrayblk_shell st' kk (A ++ A') (c `max` Z.to_nat n) own' -∗
      zeros true kk A' -∗ hctl (own' ∪ cl) -∗ Φ st') -∗
    wp (arrayblk_grow st n) Φ.
  Proof.
    iIntros (Hd Hn) "[[-> %Hcnt] Hsh] Hc HΦ".
    destruct st as [block cnt]. simpl in Hcnt |- *. subst cnt.
    assert (arrayblk_grow (ArrayBlk block (Z.of_nat c)) n = gen_grow (calloc_words ARRAYBLK_SIZE) ArrayBlk block (Z.of_nat c) n) as -> by done.
    iApply (wp_blk_grow Henv true 1 _ (le_n 1) wp_arrayblk_al with "Hsh Hc"); [done|done|].
    iIntros (block' A' own' Hs Hd') "Hsh Hz Hc". iApply ("HΦ" with "[//] [//] [Hsh] Hz Hc"). by iFrame.
  Qed.

  Lemma wp_arrayblk_ref st kk A c own i a Φ : (i < c)%nat → A !! i = Some a →
    arrayblk_shell st kk A c own -∗ (arrayblk_shell st kk A c own -∗ Φ a) -∗ wp (arrayblk_ref st (Z.of_nat i)) Φ.
  Proof.
    iIntros (Hi Ha) "[[-> %Hcnt] Hsh] HΦ". rewrite /arrayblk_ref. wp_assert; [apply bool_decide_eq_true; lia|].
    change ARRAYBLK_SIZE with 4096.
    iApply (wp_blk_ref true 1 (le_n 1) with "Hsh"); [done|done|done|]. iIntros "Hsh". iApply "HΦ". by iFrame.
  Qed.

  Lemma wp_arrayblk_done st kk A c own cl Φ : own ##ₘ cl →
    arrayblk_shell st kk A c own -∗ ([∗ list] a ∈ A, rawelem true kk a) -∗ hctl (own ∪ cl) -∗
    (hctl cl -∗ Φ tt) -∗ wp (arrayblk_done st) Φ.
  Proof.
    iIntros (Hd) "[[-> %Hcnt] Hsh] Hraw Hc HΦ". rewrite /arrayblk_done.
    by iApply (wp_blk_done true 1 (le_n 1) with "Hsh Hraw Hc").
  Qed.

  Lemma arrayblk_shell_facts st kk A c own : arrayblk_shell st kk A c own ⊢
    ⌜(c ≤ length A)%nat ∧ stride true kk * Z.of_nat (length A) < 2 ^ 64 ∧
     arrayblk_size st = Z.of_nat c ∧ arrayblk_memory_usage st = heap_bytes own ∧ arrayblk_inv st (Z.of_nat c) (Z.of_nat kk) ∧
     afacts (stride true kk) A own ∧ (true = true → kk = 1%nat)⌝.
  Proof.
    iIntros "[[-> %Hcnt] Hsh]".
    iDestruct (blk_facts true 1 (le_n 1) with "Hsh") as %(Hl & Hs & blocks & Hsz & Hb & Hb2 & Hcap & Hus & Hby & Hbr & Hf).
    iPureIntro. change (stride true 1) with 8 in Hby.
    assert (Hu : arrayblk_memory_usage st = 8 * ar_bucket_max (ab_block st) + 8 * 4096 * blocks).
    { rewrite /arrayblk_memory_usage Hus Hsz /wrap Zplus_mod_idemp_r /ARRAYBLK_SIZE Z.mod_small; lia. }
    split; [done|]. split; [done|]. split; [done|]. split; [lia|]. split; [|done].
    split; [done|]. exists blocks, (ar_bucket_max (ab_block st)). done.
  Qed.

  Definition arrayblk_ok : array_proof arrayblk_a arrayblk_inv.
  Proof.
    refine (ArrayProof arrayblk_a arrayblk_inv _ arrayblk_shell wp_arrayblk_init wp_arrayblk_grow wp_arrayblk_ref
      wp_arrayblk_done arrayblk_shell_facts _ (λ _ _ _ _, eq_refl) (λ _ _ _, eq_refl) (λ _ _ _, eq_refl)).
    simpl. lia.
  Defined.
End arrayblk.

(** ** tommy_arrayblkof *)
Definition arrayblkof_inv (st : arrayblkof) (n k : Z) : Prop :=
  abo_count st = n ∧ abo_element_size st = k ∧
  ∃ blocks cap, array_size (abo_block st) = blocks ∧ n ≤ 4096 * blocks < n + 4096 ∧ 0 ≤ blocks ≤ cap ∧ (cap = 64 ∨ cap < 2 * blocks) ∧
    arrayblkof_memory_usage st = 8 * cap + k * 4096 * blocks.

Section arrayblkof.
  Context `{!memG}.
  Hypothesis Henv : memG_env.

  Definition arrayblkof_shell (st : arrayblkof) (kk : nat) (A : list Z) (c : nat) (own : gmap Z region) : iProp :=
    ⌜(1 ≤ kk)%nat ∧ abo_element_size st = Z.of_nat kk ∧ abo_count st = Z.of_nat c⌝ ∗
    blk_shell false kk (abo_block st) A c own.

  Lemma wp_arrayblkof_al kk (own cl : gmap Z region) Φ : own ##ₘ cl →
    hctl (own ∪ cl) -∗
    (∀ a, ⌜0 < a⌝ -∗ ⌜a + stride false kk * 4096 < 2 ^ 64⌝ -∗ ⌜own !! a = None⌝ -∗
      ⌜∀ b s, (own ∪ cl) !! b = Some s → apart a (stride false kk * 4096) b (region_bytes s)⌝ -∗
      ⌜<[a := mkreg false kk BS]> own ##ₘ cl⌝ -∗ hctl (<[a := mkreg false kk BS]> own ∪ cl) -∗
      zeros false kk (layout false kk (bl [a])) -∗ Φ a) -∗
    wp (calloc_bytes ARRAYBLKOF_SIZE (Z.of_nat kk)) Φ.
  Proof.
    iIntros (Hd) "Hc HΦ". change ARRAYBLKOF_SIZE with 4096.
    iApply (wp_calloc_bytes with "Hc"); [done|done|done|lia|]. rewrite BS_eq Nat2Z.id.
    rewrite stride_false.
    iIntros (a) "H1 H2 H3 H4 H5 H6 Hz". iApply ("HΦ" with "H1 H2 H3 H4 H5 H6 [Hz]").
    change (bl [a]) with [(a, BS)]. by rewrite layout_single stride_false.
  Qed.

  Lemma wp_arrayblkof_init k cl Φ : 1 ≤ k < 2 ^ 64 →
    hctl cl -∗
    (∀ st A own, ⌜own ##ₘ cl⌝ -∗ arrayblkof_shell st (Z.to_nat k) A 0 own -∗ zeros false (Z.to_nat k) A -∗
      hctl (own ∪ cl) -∗ Φ st) -∗
    wp (arrayblkof_init k) Φ.
  Proof.
    iIntros (Hk) "Hc HΦ". rewrite /arrayblkof_init. wp_bind. iApply (wp_blk_init Henv false (Z.to_nat k) with "Hc").
    iIntros (block A own Hd) "Hsh Hz Hc". wp_ret. iApply ("HΦ" with "[//] [Hsh] Hz Hc"). iFrame. iPureIntro. simpl. lia.
  Qed.

  Lemma wp_arrayblkof_grow st kk A c own cl n Φ : own ##ₘ cl → 0 ≤ n ≤ 2 ^ 64 - 4096 →
    arrayblkof_shell st kk A c own -∗ hctl (own ∪ cl) -∗
    (∀ st' A' own', ⌜own ⊆ own'⌝ -∗ ⌜own' ##ₘ cl⌝ -∗ arrayblkof_shell st' kk (A ++ A') (c `max` Z.to_nat n) own' -∗
      zeros false kk A' -∗ hctl (own' ∪ cl) -∗ Φ st') -∗
    wp (arrayblkof_grow st n) Φ.
  Proof.
    iIntros (Hd Hn) "[(%Hkk & %Hes & %Hcnt) Hsh] Hc HΦ".
    destruct st as [block es cnt]. simpl in Hcnt, Hes |- *. subst cnt es.
    assert (arrayblkof_grow (ArrayBlkOf block (Z.of_nat kk) (Z.of_nat c)) n =
      gen_grow (calloc_bytes ARRAYBLKOF_SIZE (Z.of_nat kk)) (λ b, ArrayBlkOf b (Z.of_nat kk)) block (Z.of_nat c) n) as -> by done.
    iApply (wp_blk_grow Henv false kk _ Hkk (wp_arrayblkof_al kk) with "Hsh Hc"); [done|done|].
    iIntros (block' A' own' Hs Hd') "Hsh Hz Hc". iApply ("HΦ" with "[//] [//] [Hsh] Hz Hc"). by iFrame.
  Qed.

  Lemma wp_arrayblkof_ref st kk A c own i a Φ : (i < c)%nat → A !! i = Some a →
    arrayblkof_shell st kk A c own -∗ (arrayblkof_shell st kk A c own -∗ Φ a) -∗ wp (arrayblkof_ref st (Z.of_nat i)) Φ.
  Proof.
    iIntros (Hi Ha) "[(%Hkk & %Hes & %Hcnt) Hsh] HΦ". rewrite /arrayblkof_ref.
    wp_assert; [apply bool_decide_eq_true; lia|]. change ARRAYBLKOF_SIZE with 4096.
    iApply (wp_blk_ref false kk Hkk with "Hsh"); [done|done| |].
    { rewrite /wrap Zmod_mod Hes stride_false Z.mul_comm //. }
    iIntros "Hsh". iApply "HΦ". by iFrame.
  Qed.

  Lemma wp_arrayblkof_done st kk A c own cl Φ : own ##ₘ cl →
    arrayblkof_shell st kk A c own -∗ ([∗ list] a ∈ A, rawelem false kk a) -∗ hctl (own ∪ cl) -∗
    (hctl cl -∗ Φ tt) -∗ wp (arrayblkof_done st) Φ.
  Proof.
    iIntros (Hd) "[(%Hkk & %Hes & %Hcnt) Hsh] Hraw Hc HΦ". rewrite /arrayblkof_done.
    by iApply (wp_blk_done false kk Hkk with "Hsh Hraw Hc").
  Qed.

  Lemma arrayblkof_shell_facts st kk A c own : arrayblkof_shell st kk A c own ⊢
    ⌜(c ≤ length A)%nat ∧ stride false kk * Z.of_nat (length A) < 2 ^ 64 ∧
     arrayblkof_size st = Z.of_nat c ∧ arrayblkof_memory_usage st = heap_bytes own ∧
     arrayblkof_inv st (Z.of_nat c) (Z.of_nat kk) ∧
     afacts (stride false kk) A own ∧ (false = true → kk = 1%nat)⌝.
  Proof.
    iIntros "[(%Hkk & %Hes & %Hcnt) Hsh]".
    iDestruct (blk_facts false kk Hkk with "Hsh") as %(Hl & Hs & blocks & Hsz & Hb & Hb2 & Hcap & Hus & Hby & Hbr & Hf).
    iPureIntro. rewrite stride_false in Hby.
    assert (Hu : arrayblkof_memory_usage st = 8 * ar_bucket_max (abo_block st) + Z.of_nat kk * 4096 * blocks).
    { rewrite /arrayblkof_memory_usage Hus Hsz Hes /wrap Zplus_mod_idemp_r /ARRAYBLKOF_SIZE Z.mod_small; lia. }
    split; [done|]. split; [done|]. split; [done|]. split; [lia|]. split; [|done].
    split; [done|]. split; [done|]. exists blocks, (ar_bucket_max (abo_block st)). done.
  Qed.

  Definition arrayblkof_ok : array_proof arrayblkof_a arrayblkof_inv.
  Proof.
    refine (ArrayProof arrayblkof_a arrayblkof_inv _ arrayblkof_shell wp_arrayblkof_init wp_arrayblkof_grow
      wp_arrayblkof_ref wp_arrayblkof_done arrayblkof_shell_facts _ _ _ _); try (simpl; done).
  Defined.
End arrayblkof.
