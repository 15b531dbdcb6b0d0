(** * Proof tools for the history theorems. *)
From Verif Require Export Client Wp ListProof.
Global Open Scope Z_scope.
Local Typeclasses Transparent nodeP freenode.

(** The cells of an object that are not in its node. *)
Definition rest_cells (nw : nat) (p : Z) (o : Z * nat) : list Z :=
  filter (λ a, a ∉ node_cells nw p) (obj_cells o).

Lemma node_cells_NoDup nw p : NoDup (node_cells nw p).
Proof. unfold node_cells. apply NoDup_fmap_2_strong; [intros; lia|apply NoDup_seq]. Qed.

Lemma obj_cells_NoDup o : NoDup (obj_cells o).
Proof. apply region_cells_NoDup. Qed.

Lemma obj_cells_split nw p o :
  node_cells nw p ⊆ obj_cells o → obj_cells o ≡ₚ node_cells nw p ++ rest_cells nw p o.
Proof.
  intros Hsub. apply NoDup_Permutation; [apply obj_cells_NoDup| |].
  - apply NoDup_app. split; [apply node_cells_NoDup|split].
    + intros a Ha [Hn _]%elem_of_list_filter. done.
    + apply NoDup_filter, obj_cells_NoDup.
  - intros a. rewrite elem_of_app /rest_cells elem_of_list_filter.
    destruct (decide (a ∈ node_cells nw p)); naive_solver.
Qed.

Lemma in_objs_cells om a : a ∈ objs_cells om ↔ ∃ p o, om !! p = Some o ∧ a ∈ obj_cells o.
Proof.
  rewrite /objs_cells elem_of_list_bind. split.
  - intros ([p o] & Ha & Hp). rewrite elem_of_map_to_list in Hp. eauto.
  - intros (p & o & Hp & Ha). exists (p, o). by rewrite elem_of_map_to_list.
Qed.

Section sizes.
  (** Distinct 8-aligned addresses in the address space are few. *)
  Lemma aligned_length (ps : list Z) :
    NoDup ps → Forall (λ p, 0 < p ∧ p mod 8 = 0 ∧ p < 2 ^ 64) ps → Z.of_nat (length ps) < 2 ^ 61.
  Proof.
    intros Hnd HF.
    assert (Hq : NoDup ((λ p, p / 8) <$> ps)).
    { clear -Hnd HF. induction ps as [|p ps IH]; [constructor|].
      inversion_clear Hnd. inversion_clear HF as [|?? Hp HF']. csimpl. constructor; [|by apply IH].
      intros (q & Hq & Hin)%elem_of_list_fmap. apply H.
      rewrite Forall_forall in HF'. specialize (HF' q Hin).
      assert (p = q) as ->; [|done].
      rewrite (Z.div_mod p 8) // (Z.div_mod q 8) //. lia. }
    assert (Hb : Forall (λ q, 1 <= q <= 2 ^ 61 - 1) ((λ p, p / 8) <$> ps)).
    { apply Forall_fmap. eapply Forall_impl; [exact HF|]. intros p (?&?&?). simpl.
      change (2 ^ 64) with (8 * 2 ^ 61) in *. split.
      - apply Z.div_le_lower_bound; [lia|]. destruct (decide (p < 8)); [|lia].
        rewrite Z.mod_small in H0; lia.
      - assert (p / 8 < 2 ^ 61); [|lia]. apply Z.div_lt_upper_bound; lia. }
    rewrite -(fmap_length (λ p, p / 8)).
    assert (Hle : ∀ (n : Z) (qs : list Z), 0 <= n → NoDup qs → Forall (λ q, 1 <= q <= n) qs → Z.of_nat (length qs) <= n).
    { clear. intros n qs Hn Hnd HF.
      revert qs Hnd HF. pattern n. apply natlike_ind; [| |done].
      - intros qs _ HF. destruct qs; simpl; [lia|]. inversion_clear HF. lia.
      - intros k Hk IH qs Hnd HF.
        destruct (decide (Z.succ k ∈ qs)) as [(l1&l2&->)%elem_of_list_split|Hni].
        + assert (Hnd' : NoDup (l1 ++ l2)) by (eapply (NoDup_cons_1_2 (Z.succ k)); rewrite Permutation_middle; done).
          assert (Hni : Z.succ k ∉ l1 ++ l2) by (apply (NoDup_cons_1_1); rewrite Permutation_middle; done).
          specialize (IH _ Hnd'). rewrite app_length /=. rewrite app_length in IH.
          cut (Z.of_nat (length l1 + length l2) <= k); [lia|]. apply IH.
          rewrite Forall_forall. rewrite Forall_forall in HF. intros q Hq.
          assert (q ∈ l1 ++ Z.succ k :: l2) by set_solver. specialize (HF q H).
          assert (q ≠ Z.succ k) by set_solver. lia.
        + specialize (IH _ Hnd). cut (Z.of_nat (length qs) <= k); [lia|]. apply IH.
          rewrite Forall_forall. rewrite Forall_forall in HF. intros q Hq. specialize (HF q Hq).
          assert (q ≠ Z.succ k) by set_solver. lia. }
    specialize (Hle (2 ^ 61 - 1) _ ltac:(lia) Hq Hb). lia.
  Qed.

  Lemma client_size nw om others m :
    (0 < nw)%nat → client_ok nw om others m → Z.of_nat (size om) < 2 ^ 61.
  Proof.
    intros Hnw (Hn & _). rewrite -size_dom.
    change (size (dom om)) with (length (elements (dom om))).
    apply aligned_length; [apply NoDup_elements|].
    rewrite Forall_forall. intros p [o Ho]%elem_of_elements%elem_of_dom.
    destruct (Hn _ _ Ho) as (?&?&?&_). lia.
  Qed.

  (** Different nodes are in different objects. *)
  Lemma client_base_inj nw om others m p q d n k :
    (0 < nw)%nat → client_ok nw om others m →
    om !! p = Some (d, n) → om !! q = Some (d, k) → p = q.
  Proof.
    intros Hnw (Hn & Hnd & _) Hp Hq. destruct (decide (p = q)) as [|Hne]; [done|exfalso].
    assert (Hne0 : ∀ p d n, om !! p = Some (d, n) → d ∈ obj_cells (d, n)).
    { clear -Hn Hnw. intros p d n Hp. destruct (Hn _ _ Hp) as (_&_&_&Hs).
      destruct n as [|n].
      - destruct nw; [lia|]. exfalso. assert (p + 8 * Z.of_nat 0 ∈ obj_cells (d, 0%nat)).
        { apply Hs. unfold node_cells. simpl. by left. }
        unfold obj_cells in H. simpl in H. by apply elem_of_nil in H.
      - unfold obj_cells. simpl. apply elem_of_cons. left; lia. }
    apply NoDup_app in Hnd as (_ & _ & Hnd). unfold objs_cells in Hnd.
    rewrite -{1}(insert_id _ _ _ Hp) -insert_delete_insert in Hnd.
    rewrite map_to_list_insert in Hnd; [|apply lookup_delete]. csimpl in Hnd.
    apply NoDup_app in Hnd as (_ & Hnd & _). apply (Hnd d (Hne0 _ _ _ Hp)).
    apply elem_of_list_bind. exists (q, (d, k)). split; [by eapply Hne0|].
    apply elem_of_map_to_list. by rewrite lookup_delete_ne.
  Qed.
End sizes.

Section client.
  Context `{!memG}.
  Variable nw : nat.
  Variable om : objmap.

  (** The node words of a node in no container. *)
  Definition fnode (p : Z) : iProp :=
    ⌜0 < p⌝ ∗ [∗ list] a ∈ node_cells nw p, ∃ c, ⌜wordcell c⌝ ∗ a ↦ c.

  (** The words of the object around node [p]. *)
  Definition rest (p : Z) : iProp :=
    ∃ o, ⌜om !! p = Some o⌝ ∗ [∗ list] a ∈ rest_cells nw p o, ∃ c, ⌜wordcell c⌝ ∗ a ↦ c.

  (** The nodes in no container. *)
  Definition pool (ps : gset Z) : iProp := [∗ set] p ∈ ps, fnode p ∗ rest p.

  Lemma pool_take p ps : p ∈ ps → pool ps -∗ fnode p ∗ rest p ∗ pool (ps ∖ {[p]}).
  Proof.
    iIntros (Hp) "H". rewrite /pool (big_sepS_delete _ ps) //. iDestruct "H" as "[[$ $] $]".
  Qed.

  Lemma fnode_excl p q : (0 < nw)%nat → fnode p -∗ fnode q -∗ ⌜p ≠ q⌝.
  Proof.
    iIntros (Hnw) "[_ H1] [_ H2]". rewrite /node_cells. destruct nw as [|k]; [lia|].
    cbn. iDestruct "H1" as "[(%c1&_&H1) _]". iDestruct "H2" as "[(%c2&_&H2) _]".
    iDestruct (mapsto_ne with "H1 H2") as %Hne. iPureIntro. lia.
  Qed.

  Lemma pool_give p ps : (0 < nw)%nat → fnode p -∗ rest p -∗ pool ps -∗ pool (ps ∪ {[p]}).
  Proof.
    iIntros (Hnw) "Hf Hr Hp".
    destruct (decide (p ∈ ps)) as [Hin|Hni].
    - iDestruct (pool_take with "Hp") as "(Hf' & _)"; first done.
      by iDestruct (fnode_excl with "Hf Hf'") as %?.
    - rewrite /pool (comm_L (∪)) big_sepS_insert //. iFrame.
  Qed.

  Lemma rest_om p : rest p -∗ ⌜is_Some (om !! p)⌝.
  Proof. iIntros "(%o & %Ho & _)". eauto. Qed.

  Lemma wp_tape_take t l Φ : t ↦ Tape l -∗ (t ↦ Tape [] -∗ Φ l) -∗ wp (tape_take t) Φ.
  Proof.
    rewrite wp_unseal. iIntros "Ha HΦ" (m) "Hm". iDestruct (memI_lookup with "Hm Ha") as %Hl.
    rewrite /tape_take Hl. iMod (memI_update with "Hm Ha") as "[$ Ha]". iModIntro. by iApply "HΦ".
  Qed.

  Lemma wp_tape_cmp t f l a b g Φ :
    reads memG_frame (f l) (g l) a b →
    t ↦ Tape l -∗ (t ↦ Tape (l ++ [a; b]) -∗ Φ (g l a b)) -∗ wp (tape_cmp t f a b) Φ.
  Proof.
    rewrite wp_unseal. iIntros (Hg) "Ha HΦ". iIntros (m) "Hm". iDestruct (memI_lookup with "Hm Ha") as %Hl.
    iDestruct (memI_frame with "Hm") as %Hf. rewrite /tape_cmp Hl (Hg m Hf).
    iMod (memI_update with "Hm Ha") as "[$ Ha]". iModIntro. by iApply "HΦ".
  Qed.

  Lemma wp_visit_free_gen t l live p d n Φ :
    om !! p = Some (d, n) → node_cells nw p ⊆ obj_cells (d, n) → d ≠ 0 → live !! d = Some (RWords n) →
    fnode p -∗ rest p -∗ t ↦ Tape l -∗ hctl live -∗
    (t ↦ Tape (l ++ [d]) -∗ hctl (delete d live) -∗ Φ tt) -∗
    wp (visit_free t d) Φ.
  Proof.
    iIntros (Hom Hs Hd Hl) "[_ Hn] (%o & %Ho & Hr) Ht Hc HΦ". rewrite Hom in Ho. injection Ho as <-.
    rewrite /visit_free. wp_bind. iApply (wp_tape_push with "Ht"). iIntros "Ht".
    iApply (wp_free with "Hc [Hn Hr]"); [done|done| |].
    - change (region_cells d (RWords n)) with (obj_cells (d, n)).
      rewrite (obj_cells_split nw p) // big_sepL_app. iSplitL "Hn".
      + iApply (big_sepL_impl with "Hn"). iIntros "!>" (???) "(%c&_&H)". by iExists c.
      + iApply (big_sepL_impl with "Hr"). iIntros "!>" (???) "(%c&_&H)". by iExists c.
    - iIntros "Hc". iApply ("HΦ" with "Ht Hc").
  Qed.

  Lemma wp_visit t l d Φ : t ↦ Tape l -∗ (t ↦ Tape (l ++ [d]) -∗ Φ tt) -∗ wp (visit t d) Φ.
  Proof. apply wp_tape_push. Qed.

  Lemma wp_visit_arg t l a d Φ :
    t ↦ Tape l -∗ (t ↦ Tape (l ++ [a; d]) -∗ Φ tt) -∗ wp (visit_arg t a d) Φ.
  Proof.
    iIntros "Ht HΦ". rewrite /visit_arg. wp_bind. iApply (wp_tape_push with "Ht"). iIntros "Ht".
    iApply (wp_tape_push with "Ht"). iIntros "Ht". rewrite -app_assoc. by iApply "HΦ".
  Qed.
End client.
Global Typeclasses Opaque fnode rest pool.

Section node4.
  Context `{!memG}.
  Lemma fnode4 p : fnode 4 p ⊣⊢ freenode p.
  Proof.
    rewrite /fnode /freenode /node_cells /f_next /f_prev /f_data /f_index /=.
    rewrite Z.mul_0_r Z.add_0_r.
    change (8 * Z.of_nat 1) with 8. change (8 * Z.of_nat 2) with 16. change (8 * Z.of_nat 3) with 24.
    iSplit.
    - iIntros "($&$&$&$&$&_)".
    - iIntros "($&$&$&$&$)".
  Qed.
End node4.

(** ** Histories *)
Section hist.
  Context `{!memG} {op out cst sst : Type}.
  Variable step : cst → op → M (cst * out).
  Variable pre : sst → op → Prop.
  Variable post : sst → op → out → sst → Prop.
  Variable R : cst → sst → iProp.

  Lemma wp_run c : ∀ cs s Φ,
    (∀ cs s o Φ, pre s o →
      R cs s -∗ (∀ cs' a s', ⌜post s o a s'⌝ -∗ R cs' s' -∗ Φ (cs', a)) -∗ wp (step cs o) Φ) →
    allowed pre post s c →
    R cs s -∗ (∀ cs' tr s', ⌜correct post s tr s'⌝ -∗ R cs' s' -∗ Φ (cs', tr)) -∗
    wp (run step cs c) Φ.
  Proof.
    induction c as [|o k IH]; intros cs s Φ Hstep Ha; iIntros "HR HΦ"; simpl.
    - wp_ret. iApply ("HΦ" with "[] HR"). iPureIntro. constructor.
    - destruct Ha as [Hpre Ha]. wp_bind. iApply (Hstep with "HR"); first done.
      iIntros (cs' a s' Hpost) "HR". wp_bind.
      iApply (IH a with "HR"); [done|by apply Ha|].
      iIntros (cs'' tr s'' Hc) "HR". wp_ret. iApply ("HΦ" with "[] HR").
      iPureIntro. econstructor; eauto.
  Qed.
End hist.

(** ** Adequacy with client memory and frame *)
Lemma big_sepM_cells `{!memG} (m : mem) (ks : list Z) :
  NoDup ks → (∀ a, a ∈ ks → is_Some (m !! a)) →
  ([∗ map] k ↦ c ∈ filter (λ kc, kc.1 ∈ ks) m, k ↦ c) ⊢
  [∗ list] a ∈ ks, ∃ c, ⌜m !! a = Some c⌝ ∗ a ↦ c.
Proof.
  intros Hnd Hin. induction ks as [|k ks IH]; simpl; [auto|].
  apply NoDup_cons in Hnd as [Hk Hnd]. destruct (Hin k ltac:(set_solver)) as [c Hc].
  assert (filter (λ kc, kc.1 ∈ k :: ks) m = <[k := c]> (filter (λ kc, kc.1 ∈ ks) m)) as ->.
  { apply map_eq. intros j. destruct (decide (j = k)) as [->|Hne].
    - rewrite lookup_insert. apply map_filter_lookup_Some. split; [done|]. set_solver.
    - rewrite lookup_insert_ne //. apply option_eq. intros c'.
      rewrite !map_filter_lookup_Some /= elem_of_cons. naive_solver. }
  rewrite big_sepM_insert; last first.
  { apply map_filter_lookup_None. right. intros ? _. done. }
  iIntros "[H1 H2]". iSplitL "H1"; [iExists c; by iSplit|]. iApply IH; [done| |done].
  intros. apply Hin. set_solver.
Qed.

Lemma reads_mono K K' f g a b : K ⊆ K' → reads K f g a b → reads K' f g a b.
Proof. intros HK Hr m Hm. apply Hr. by trans K'. Qed.

Lemma separate_frame K cells (m : mem) : separate K cells m → K ⊆ filter (λ kc, kc.1 ∉ cells) m.
Proof.
  intros [Hm Hc]. apply map_subseteq_spec. intros k c Hk. apply map_filter_lookup_Some. split.
  - by eapply lookup_weaken.
  - intros Hin. by rewrite Hc in Hk.
Qed.

Lemma client_adequacy (E : Prop) {A} (c : M A) nw om others m (φ : A → mem → Prop) :
  client_ok nw om others m → (∀ a, a ∈ others → is_Some (m !! a)) →
  (∀ `{!memG}, memG_env = E → memG_frame = filter (λ kc, kc.1 ∉ others ++ objs_cells om) m →
     ([∗ list] a ∈ others, ∃ c, ⌜m !! a = Some c⌝ ∗ a ↦ c) -∗ pool nw om (dom om) -∗
     wp c (λ v, ∀ m', memI m' -∗ ⌜φ v m'⌝)) →
  match c m with
  | Ok v m' => φ v m' ∧ unchanged_outside (others ++ objs_cells om) m m'
  | Env _ => E | UB | Fuel => False end.
Proof.
  intros (Hn & Hnd & Hcell) Hoth Hwp.
  apply (wp_adequacy_frame E (others ++ objs_cells om) _ m (λ v m', φ v m' ∧ unchanged_outside (others ++ objs_cells om) m m')).
  intros HG HE HF. iIntros "Hm".
  iDestruct (big_sepM_cells m (others ++ objs_cells om) with "Hm") as "Hc"; [done| |].
  { intros a [Ha|Ha]%elem_of_app; [by apply Hoth|]. destruct (Hcell _ Ha) as (?&?&_); eauto. }
  rewrite big_sepL_app. iDestruct "Hc" as "[Hoth Hobj]".
  iAssert (pool nw om (dom om)) with "[Hobj]" as "Hpool".
  { rewrite /pool /objs_cells.
    rewrite big_sepL_bind -big_sepM_dom big_opM_map_to_list.
    iApply (big_sepL_impl with "Hobj"). iIntros "!>" (i [p o] Hpo) "H /=".
    apply elem_of_list_lookup_2, elem_of_map_to_list in Hpo.
    destruct (Hn _ _ Hpo) as (Hpos&_&_&Hs).
    rewrite (obj_cells_split nw p o) // big_sepL_app. iDestruct "H" as "[H1 H2]".
    rewrite /fnode /rest. iSplitL "H1"; [iSplit; [done|]|iExists o; iSplit; [done|]].
    - iApply (big_sepL_impl with "H1"). iIntros "!>" (j a Ha) "(%c' & %Hc' & H)". iExists c'. iFrame.
      apply elem_of_list_lookup_2, Hs in Ha.
      destruct (Hcell a) as (c'' & Hc'' & ?); [apply in_objs_cells; eauto|]. by simplify_eq.
    - iApply (big_sepL_impl with "H2"). iIntros "!>" (j a Ha) "(%c' & %Hc' & H)". iExists c'. iFrame.
      apply elem_of_list_lookup_2, elem_of_list_filter in Ha as [_ Ha].
      destruct (Hcell a) as (c'' & Hc'' & ?); [apply in_objs_cells; eauto|]. by simplify_eq. }
  iDestruct (Hwp HG HE HF with "Hoth Hpool") as "Hwp".
  iApply (wp_wand with "Hwp"). iIntros (v) "Hv". iIntros (m') "Hm".
  iAssert ⌜φ v m'⌝%I as %Hφ; first by iApply "Hv". iSplit; [done|].
  iIntros (a c' Ha Hc').
  iDestruct (memI_frame with "Hm") as %Hf. iPureIntro. eapply lookup_weaken; [|exact Hf].
  rewrite HF. by apply map_filter_lookup_Some.
Qed.

(** ** Heap blocks *)
Lemma heap_bytes_empty : heap_bytes ∅ = 0.
Proof. apply map_fold_empty. Qed.
Lemma heap_bytes_insert bs a r : bs !! a = None → heap_bytes (<[a := r]> bs) = region_bytes r + heap_bytes bs.
Proof.
  intros Ha. rewrite /heap_bytes. apply (map_fold_insert_L (λ _ r acc, region_bytes r + acc)); [|done]. intros. lia.
Qed.
Lemma heap_bytes_singleton a r : heap_bytes {[a := r]} = region_bytes r.
Proof. rewrite -insert_empty heap_bytes_insert // heap_bytes_empty. lia. Qed.
Lemma heap_bytes_union bs bs' : bs ##ₘ bs' → heap_bytes (bs ∪ bs') = heap_bytes bs + heap_bytes bs'.
Proof.
  induction bs as [|a r bs Ha IH] using map_ind; intros Hd; [by rewrite left_id_L heap_bytes_empty|].
  apply map_disjoint_insert_l in Hd as [Hd1 Hd2]. rewrite -insert_union_l !heap_bytes_insert //.
  - rewrite IH //. lia.
  - by apply lookup_union_None.
Qed.

Lemma heap_bytes_nonneg bs : 0 ≤ heap_bytes bs.
Proof.
  induction bs as [|a r bs Ha IH] using map_ind; [by rewrite heap_bytes_empty|].
  rewrite heap_bytes_insert //. destruct r; simpl; lia.
Qed.

(** The blocks [bs], made of words, with all their cells. *)
Definition block_ok (a : Z) (r : region) : Prop :=
  0 < a ∧ a mod 8 = 0 ∧ a + region_bytes r < 2 ^ 64 ∧ ∃ n, r = RWords n.

Lemma block_ok_16 a n : 0 < a → a mod 16 = 0 → a + region_bytes (RWords n) < 2 ^ 64 → block_ok a (RWords n).
Proof.
  intros Ha Hm Hb. split; [done|]. split; [|eauto].
  rewrite (Z.div_mod a 16) // Hm. replace (16 * (a / 16) + 0) with (2 * (a / 16) * 8) by lia. apply Z.mod_mul. lia.
Qed.

Lemma block_ok_cells a r : block_ok a r → Forall (λ p, 0 < p ∧ p mod 8 = 0 ∧ p < 2 ^ 64) (region_cells a r).
Proof.
  intros (Ha & Hm & Hb & n & ->). rewrite Forall_forall. intros p (i & -> & Hi%elem_of_seq)%elem_of_list_fmap.
  simpl in Hb. split; [lia|]. split; [|lia]. rewrite (Z.mul_comm 8) Z.mod_add //.
Qed.

Lemma blocks_bytes bs : map_Forall block_ok bs → heap_bytes bs = 8 * Z.of_nat (length (blocks_cells bs)).
Proof.
  induction bs as [|a r bs Ha IH] using map_ind; intros HF; [by rewrite heap_bytes_empty|].
  apply map_Forall_insert in HF as [(_ & _ & _ & n & ->) HF]; [|done].
  rewrite heap_bytes_insert // IH // /blocks_cells.
  assert (Hl : length (map_to_list (<[a := RWords n]> bs) ≫= λ ar, region_cells ar.1 ar.2) =
    length (((a, RWords n) :: map_to_list bs) ≫= λ ar, region_cells ar.1 ar.2)).
  { apply Permutation_length. by rewrite map_to_list_insert. }
  rewrite Hl bind_cons app_length fmap_length seq_length. simpl. lia.
Qed.

Section blocks.
  Context `{!memG}.

  Definition blocks_own (bs : gmap Z region) : iProp :=
    [∗ map] a ↦ r ∈ bs, ⌜block_ok a r⌝ ∗ [∗ list] k ∈ region_cells a r, ∃ c, k ↦ c.

  Lemma cells_NoDup (l : list Z) : ([∗ list] a ∈ l, ∃ c, a ↦ c) ⊢ ⌜NoDup l⌝.
  Proof.
    induction l as [|a l IH]; simpl; iIntros "H"; [iPureIntro; constructor|].
    iDestruct "H" as "[(%c & Ha) H]".
    iAssert ⌜a ∉ l⌝%I as %Hni.
    { iIntros (Hin). apply elem_of_list_lookup in Hin as [i Hi].
      iDestruct (big_sepL_lookup with "H") as "[%c' H]"; first done. iApply (mapsto_excl with "Ha H"). }
    rewrite IH. iDestruct "H" as %?. iPureIntro. by constructor.
  Qed.

  Lemma blocks_own_ok bs : blocks_own bs ⊢ ⌜map_Forall block_ok bs⌝.
  Proof. iIntros "H" (a r Hr). iDestruct (big_sepM_lookup with "H") as "[% _]"; done. Qed.

  Lemma blocks_own_cells bs : blocks_own bs ⊢ [∗ list] a ∈ blocks_cells bs, ∃ c, a ↦ c.
  Proof.
    rewrite /blocks_own /blocks_cells big_sepL_bind big_opM_map_to_list.
    apply big_sepL_mono. iIntros (i [a r] _) "[_ $]".
  Qed.

  (** Blocks and nodes together fit in the address space. *)
  Lemma blocks_nodes_fit nw om others m bs ps : client_ok nw om others m → (∀ p, p ∈ ps → is_Some (om !! p)) →
    blocks_own bs -∗ ([∗ list] p ∈ ps, fnode nw p) -∗
    ⌜heap_bytes bs + 8 * Z.of_nat nw * Z.of_nat (length ps) < 2 ^ 64⌝.
  Proof.
    iIntros (Hok Hps) "Hb Hn". iDestruct (blocks_own_ok with "Hb") as %Hb. rewrite blocks_own_cells.
    iAssert ([∗ list] a ∈ ps ≫= node_cells nw, ∃ c, a ↦ c)%I with "[Hn]" as "Hn".
    { rewrite big_sepL_bind /fnode. iApply (big_sepL_impl with "Hn"). iIntros "!>" (i p _) "[_ H]".
      iApply (big_sepL_impl with "H"). iIntros "!>" (? a _) "(%c & _ & H)". by iExists c. }
    iCombine "Hb Hn" as "H". rewrite -big_sepL_app cells_NoDup. iDestruct "H" as %Hnd. iPureIntro.
    apply aligned_length in Hnd.
    - rewrite (blocks_bytes _ Hb). rewrite app_length in Hnd.
      assert (Hl : ∀ l : list Z, length (l ≫= node_cells nw) = (nw * length l)%nat).
      { induction l as [|x l IH]; [simpl; lia|]. rewrite bind_cons app_length IH.
        rewrite /node_cells fmap_length seq_length /=. lia. }
      rewrite Hl in Hnd. change (2 ^ 64) with (8 * 2 ^ 61). lia.
    - apply Forall_app. split.
      + rewrite Forall_forall. intros p ([a r] & Hp & Har%elem_of_map_to_list)%elem_of_list_bind.
        pose proof (block_ok_cells _ _ (Hb _ _ Har)) as HF. rewrite Forall_forall in HF. by apply HF.
      + rewrite Forall_forall. intros a (p & Ha & Hp)%elem_of_list_bind. destruct (Hps p Hp) as [o Ho].
        destruct Hok as (Hn & _). destruct (Hn _ _ Ho) as (?&Hm&?&_).
        apply elem_of_list_fmap in Ha as (i & -> & Hi%elem_of_seq). split; [lia|]. split; [|lia].
        rewrite Z.mul_comm Z.mod_add //.
  Qed.
End blocks.
