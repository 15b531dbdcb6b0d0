(** * Weakest preconditions for the executable monad, in the Iris proof mode.

    Proof tool only: no property theorem mentions anything of this file. *)
From Verif Require Export Mem.
From iris.algebra Require Export gmap_view.
From iris.base_logic Require Export base_logic.
From iris.proofmode Require Export proofmode coq_tactics reduction.
Global Open Scope Z_scope.

(** Assertions are predicates over (the authoritative view of) the memory. *)
Definition memUR : ucmra := gmap_viewUR Z (leibnizO cell).
Notation iProp := (uPred memUR).

(** [memG_env] says whether an [Env] outcome is acceptable: it is [False] for
    code that never allocates.  [memG_frame] are cells that the code leaves
    alone, which the client's callbacks may read. *)
Class memG := MemG { memG_env : Prop; memG_frame : mem }.

Section ghost.
  Implicit Types (m : mem).
  Definition rawI_def m : iProp := uPred_ownM (gmap_view_auth (V:=leibnizO cell) (DfracOwn 1) m : memUR).
  Definition rawI_aux : seal (@rawI_def). Proof. by eexists. Qed.
  Definition rawI := rawI_aux.(unseal).
  Lemma rawI_unseal : @rawI = @rawI_def. Proof. exact rawI_aux.(seal_eq). Qed.

  Definition mapsto_def (l : Z) (c : cell) : iProp :=
    uPred_ownM (gmap_view_frag (V:=leibnizO cell) l (DfracOwn 1) c : memUR).
  Definition mapsto_aux : seal (@mapsto_def). Proof. by eexists. Qed.
  Definition mapsto := mapsto_aux.(unseal).
  Lemma mapsto_unseal : @mapsto = @mapsto_def. Proof. exact mapsto_aux.(seal_eq). Qed.

  Global Instance mapsto_timeless l c : Timeless (mapsto l c).
  Proof. rewrite mapsto_unseal. apply _. Qed.

  Lemma rawI_lookup m l c : rawI m -∗ mapsto l c -∗ ⌜m !! l = Some c⌝.
  Proof.
    rewrite rawI_unseal mapsto_unseal. iIntros "H1 H2". iCombine "H1 H2" as "H".
    iDestruct (uPred.ownM_valid with "H") as %Hv.
    apply gmap_view_both_valid_L in Hv as [_ Hv]. done.
  Qed.
  Lemma rawI_update m l c c' : rawI m -∗ mapsto l c ==∗ rawI (<[l := c']> m) ∗ mapsto l c'.
  Proof.
    rewrite rawI_unseal mapsto_unseal /rawI_def /mapsto_def. iIntros "H1 H2". iCombine "H1 H2" as "H".
    rewrite -uPred.ownM_op. iApply (uPred.bupd_ownM_update with "H"). apply (gmap_view_update (V:=leibnizO cell)).
  Qed.
  Lemma rawI_delete m l c : rawI m -∗ mapsto l c ==∗ rawI (delete l m).
  Proof.
    rewrite rawI_unseal mapsto_unseal /rawI_def /mapsto_def. iIntros "H1 H2". iCombine "H1 H2" as "H".
    iApply (uPred.bupd_ownM_update with "H"). apply (gmap_view_delete (V:=leibnizO cell)).
  Qed.
  Lemma big_mapsto m :
    uPred_ownM ([^op map] k↦v ∈ m, gmap_view_frag (V:=leibnizO cell) k (DfracOwn 1) v : memUR) ⊢
    [∗ map] k↦v ∈ m, mapsto k v.
  Proof.
    rewrite mapsto_unseal /mapsto_def. induction m as [|k v m Hk IH] using map_ind.
    { rewrite big_sepM_empty. auto. }
    rewrite big_sepM_insert // (big_opM_insert (o := op)) // uPred.ownM_op. iIntros "[$ H]". by iApply IH.
  Qed.
  Lemma rawI_insert_big (m' m : mem) : m' ##ₘ m →
    rawI m ==∗ rawI (m' ∪ m) ∗ [∗ map] k↦v ∈ m', mapsto k v.
  Proof.
    rewrite rawI_unseal /rawI_def. iIntros (Hd) "H".
    iMod (uPred.bupd_ownM_update with "H") as "H"; [by apply (gmap_view_alloc_big (V:=leibnizO cell) m m' (DfracOwn 1))|].
    iDestruct "H" as "[$ H]". iModIntro. by iApply big_mapsto.
  Qed.
  Lemma mapsto_ne l k c d : mapsto l c -∗ mapsto k d -∗ ⌜l ≠ k⌝.
  Proof.
    rewrite mapsto_unseal. iIntros "H1 H2". iIntros (->). iCombine "H1 H2" as "H".
    iDestruct (uPred.ownM_valid with "H") as %Hv.
    apply gmap_view_frag_op_valid_L in Hv as [Hv _]. by apply dfrac_valid_own_r in Hv.
  Qed.

  Lemma mem_soundness m (φ : Prop) : (rawI m ∗ ([∗ map] k↦v ∈ m, mapsto k v) ⊢ |==> ⌜φ⌝) → φ.
  Proof.
    intros H. set (x := (gmap_view_auth (V:=leibnizO cell) (DfracOwn 1) m ⋅
      [^op map] k↦v ∈ m, gmap_view_frag (V:=leibnizO cell) k (DfracOwn 1) v) : memUR).
    assert (Hx : ✓ x).
    { pose proof (gmap_view_alloc_big (V:=leibnizO cell) ∅ m (DfracOwn 1)) as Hu.
      rewrite right_id_L in Hu. specialize (Hu (map_disjoint_empty_r _) ltac:(done)).
      apply cmra_valid_validN. intros n. apply (Hu n None). simpl.
      apply cmra_valid_validN, gmap_view_auth_valid. }
    assert (Hm : uPred_ownM x ⊢ ⌜φ⌝).
    { etrans; [|apply (bupd_plain ⌜φ⌝)]. rewrite -H /x uPred.ownM_op rawI_unseal big_mapsto //. }
    revert Hm. uPred.unseal. intros [Hm]. apply (Hm 0%nat x); [by apply cmra_valid_validN|].
    by exists ε; rewrite right_id.
  Qed.
End ghost.

Section memI.
  Context `{!memG}.
  Implicit Types (m : mem).

  (** The memory is [m], and the cells of the frame are as given. *)
  Definition memI_def m : iProp := rawI m ∗ [∗ map] k↦c ∈ memG_frame, mapsto k c.
  Definition memI_aux : seal (@memI_def). Proof. by eexists. Qed.
  Definition memI := memI_aux.(unseal).
  Lemma memI_unseal : @memI = @memI_def. Proof. exact memI_aux.(seal_eq). Qed.

  Lemma memI_lookup m l c : memI m -∗ mapsto l c -∗ ⌜m !! l = Some c⌝.
  Proof. rewrite memI_unseal. iIntros "[H1 _] H2". iApply (rawI_lookup with "H1 H2"). Qed.
  Lemma memI_update m l c c' : memI m -∗ mapsto l c ==∗ memI (<[l := c']> m) ∗ mapsto l c'.
  Proof. rewrite memI_unseal. iIntros "[H1 $] H2". iApply (rawI_update with "H1 H2"). Qed.
  Lemma memI_delete m l c : memI m -∗ mapsto l c ==∗ memI (delete l m).
  Proof. rewrite memI_unseal. iIntros "[H1 $] H2". iApply (rawI_delete with "H1 H2"). Qed.
  Lemma memI_insert_big (m' m : mem) : m' ##ₘ m →
    memI m ==∗ memI (m' ∪ m) ∗ [∗ map] k↦v ∈ m', mapsto k v.
  Proof.
    rewrite memI_unseal. iIntros (Hd) "[H1 H2]". iMod (rawI_insert_big m' m Hd with "H1") as "[H1 $]". iModIntro. rewrite /memI_def. iFrame.
  Qed.
  Lemma memI_frame m : memI m -∗ ⌜memG_frame ⊆ m⌝.
  Proof.
    rewrite memI_unseal. iIntros "[H1 H2]". rewrite map_subseteq_spec. iIntros (k c Hk).
    iDestruct (big_sepM_lookup with "H2") as "H2"; [exact Hk|]. iApply (rawI_lookup with "H1 H2").
  Qed.
End memI.

Notation "l ↦ c" := (mapsto l c)
  (at level 20, format "l  ↦  c") : bi_scope.

Section wp.
  Context `{!memG}.
  Implicit Types (m : mem).

  Definition wp_def {A} (c : M A) (Φ : A -> iProp) : iProp :=
    (∀ m, memI m ==∗
      match c m with
      | Ok v m' => memI m' ∗ Φ v
      | Env _ => ⌜memG_env⌝
      | UB | Fuel => False
      end)%I.
  Definition wp_aux : seal (@wp_def). Proof. by eexists. Qed.
  Definition wp := wp_aux.(unseal).
  Lemma wp_unseal : @wp = @wp_def. Proof. exact wp_aux.(seal_eq). Qed.
  Global Arguments wp {A} c Φ.

  Lemma wp_ret {A} (v : A) Φ : Φ v -∗ wp (mret v) Φ.
  Proof. rewrite wp_unseal. iIntros "H" (m) "Hm". iModIntro. iFrame. Qed.

  Lemma wp_bind {A B} (c : M A) (k : A -> M B) Φ :
    wp c (λ v, wp (k v) Φ) -∗ wp (c ≫= k) Φ.
  Proof.
    rewrite wp_unseal. iIntros "H" (m) "Hm".
    iMod ("H" with "Hm") as "H". rewrite /mbind /M_bind.
    destruct (c m) as [v m'| | |]; try done.
    iDestruct "H" as "[Hm H]". iApply ("H" with "Hm").
  Qed.

  Lemma wp_wand {A} (c : M A) Φ Ψ : wp c Φ -∗ (∀ v, Φ v -∗ Ψ v) -∗ wp c Ψ.
  Proof.
    rewrite wp_unseal. iIntros "H HΦ" (m) "Hm".
    iMod ("H" with "Hm") as "H". iModIntro. destruct (c m); try done.
    iDestruct "H" as "[$ H]". by iApply "HΦ".
  Qed.

  Lemma wp_frame_l {A} (c : M A) R Φ : R ∗ wp c Φ -∗ wp c (λ v, R ∗ Φ v).
  Proof. iIntros "[R H]". iApply (wp_wand with "H"). iIntros (v) "$". done. Qed.

  Lemma bupd_wp {A} (c : M A) Φ : (|==> wp c Φ) -∗ wp c Φ.
  Proof. rewrite wp_unseal. iIntros "H" (m) "Hm". iMod "H". by iApply "H". Qed.

  Lemma wp_bupd {A} (c : M A) Φ : wp c (λ v, |==> Φ v) -∗ wp c Φ.
  Proof.
    rewrite wp_unseal. iIntros "H" (m) "Hm". iMod ("H" with "Hm") as "H".
    destruct (c m); try done. iDestruct "H" as "[$ >$]". done.
  Qed.

  Global Instance elim_modal_bupd_wp {A} p (c : M A) P Φ :
    ElimModal True p false (|==> P) P (wp c Φ) (wp c Φ).
  Proof.
    rewrite /ElimModal bi.intuitionistically_if_elim. iIntros (_) "[HP HΦ]".
    iApply bupd_wp. iMod "HP". iModIntro. by iApply "HΦ".
  Qed.

  Global Instance frame_wp {A} p (c : M A) R Φ Ψ :
    (∀ v, Frame p R (Φ v) (Ψ v)) →
    Frame p R (wp c Φ) (wp c Ψ) | 2.
  Proof.
    rewrite /Frame=> HR. iIntros "[R H]". iApply (wp_wand with "H").
    iIntros (v) "H". iApply HR. iFrame.
  Qed.

  Lemma wp_ub_False {A} Φ : False -∗ wp (ub : M A) Φ.
  Proof. by iIntros. Qed.

  Lemma wp_massert b Φ : b = true → Φ tt -∗ wp (massert b) Φ.
  Proof. rewrite wp_unseal. iIntros (->) "H". iIntros (m) "Hm". iModIntro. iFrame. Qed.

  Lemma wp_load a z Φ : a ↦ W z -∗ (a ↦ W z -∗ Φ z) -∗ wp (load a) Φ.
  Proof.
    rewrite wp_unseal. iIntros "Ha HΦ" (m) "Hm".
    iDestruct (memI_lookup with "Hm Ha") as %Hl. iModIntro.
    rewrite /load Hl. iFrame. by iApply "HΦ".
  Qed.

  Lemma wp_loadb a z Φ : a ↦ B z -∗ (a ↦ B z -∗ Φ z) -∗ wp (loadb a) Φ.
  Proof.
    rewrite wp_unseal. iIntros "Ha HΦ" (m) "Hm".
    iDestruct (memI_lookup with "Hm Ha") as %Hl. iModIntro.
    rewrite /loadb Hl. iFrame. by iApply "HΦ".
  Qed.

  (** Cells a word can be stored into *)

  Lemma wordcell_W z : wordcell (W z). Proof. right; eauto. Qed.
  Lemma wordcell_U : wordcell U. Proof. by left. Qed.

  Lemma wp_store a c v Φ : wordcell c → a ↦ c -∗ (a ↦ W v -∗ Φ tt) -∗ wp (store a v) Φ.
  Proof.
    rewrite wp_unseal. iIntros (Hc) "Ha HΦ". iIntros (m) "Hm".
    iDestruct (memI_lookup with "Hm Ha") as %Hl.
    iMod (memI_update _ _ _ (W v) with "Hm Ha") as "[Hm Ha]". iModIntro.
    rewrite /store Hl. destruct Hc as [->|[z ->]]; iFrame; by iApply "HΦ".
  Qed.

  Lemma wp_storeb a b v Φ : a ↦ B b -∗ (a ↦ B v -∗ Φ tt) -∗ wp (storeb a v) Φ.
  Proof.
    rewrite wp_unseal. iIntros "Ha HΦ" (m) "Hm".
    iDestruct (memI_lookup with "Hm Ha") as %Hl.
    iMod (memI_update _ _ _ (B v) with "Hm Ha") as "[Hm Ha]". iModIntro.
    rewrite /storeb Hl. iFrame; by iApply "HΦ".
  Qed.

  Lemma wp_tape_push a l v Φ : a ↦ Tape l -∗ (a ↦ Tape (l ++ [v]) -∗ Φ tt) -∗ wp (tape_push a v) Φ.
  Proof.
    rewrite wp_unseal. iIntros "Ha HΦ" (m) "Hm".
    iDestruct (memI_lookup with "Hm Ha") as %Hl.
    iMod (memI_update _ _ _ (Tape (l ++ [v])) with "Hm Ha") as "[Hm Ha]". iModIntro.
    rewrite /tape_push Hl. iFrame; by iApply "HΦ".
  Qed.

  (** Ownership of all the cells of a block *)
  Definition cells (ks : list Z) (c : cell) : iProp := [∗ list] k ∈ ks, k ↦ c.

  (** Ownership of the heap manager, with the live blocks visible *)
  Definition hctl (live : gmap Z region) : iProp :=
    (∃ o n, HCTL ↦ Ctl (HeapCtl live o n))%I.

  Lemma region_cells_range a r k : k ∈ region_cells a r → a <= k < a + region_bytes r.
  Proof.
    destruct r as [n|n]; simpl; intros (i&->&Hi)%elem_of_list_fmap;
      apply elem_of_seq in Hi; lia.
  Qed.
  Lemma region_cells_NoDup a r : NoDup (region_cells a r).
  Proof.
    destruct r as [n|n]; simpl; (apply NoDup_fmap_2; [intros ???; lia | apply NoDup_seq]).
  Qed.

  Lemma big_sepM_list_to_map_cells ks c :
    NoDup ks →
    ([∗ map] k ↦ c ∈ (list_to_map ((λ k, (k, c)) <$> ks) : mem), k ↦ c) -∗ cells ks c.
  Proof.
    induction ks as [|k ks IH]; intros Hnd; [iIntros "_"; by rewrite /cells|].
    apply NoDup_cons in Hnd as [Hk Hnd].
    rewrite fmap_cons list_to_map_cons big_sepM_insert.
    - iIntros "[H1 H2]". rewrite /cells /=. iFrame. by iApply IH.
    - apply not_elem_of_list_to_map_1. by rewrite -list_fmap_compose list_fmap_id.
  Qed.

  Lemma wp_alloc_region r c live Φ :
    memG_env →
    hctl live -∗
    (∀ a, ⌜0 < a⌝ -∗ ⌜a mod 16 = 0⌝ -∗ ⌜a + region_bytes r < 2 ^ 64⌝ -∗ ⌜live !! a = None⌝ -∗
       ⌜map_Forall (λ b s, a + region_bytes r <= b \/ b + region_bytes s <= a) live⌝ -∗
       hctl (<[a := r]> live) -∗ cells (region_cells a r) c -∗ Φ a) -∗
    wp (alloc_region r c) Φ.
  Proof.
    rewrite wp_unseal. iIntros (Henv) "(%o & %n & Hc) HΦ". iIntros (m) "Hm".
    iDestruct (memI_lookup with "Hm Hc") as %Hl.
    rewrite /alloc_region Hl /=. case_decide as Hf; [|done].
    destruct Hf as (H0&H16&Hmax&Hcells&Hlive&Hnone).
    set (a := o n) in *.
    set (ml := list_to_map ((λ k, (k, c)) <$> region_cells a r) : mem).
    assert (Hdisj : ml ##ₘ m).
    { apply map_disjoint_spec. intros k x y Hx Hy.
      apply elem_of_list_to_map_2 in Hx.
      apply elem_of_list_fmap in Hx as (k'&[= -> ->]&Hk).
      apply region_cells_range in Hk. eapply Hcells; eauto. }
    iMod (memI_insert_big ml with "Hm") as "[Hm Hnew]"; first done.
    iMod (memI_update with "Hm Hc") as "[$ Hc]". iModIntro.
    iApply ("HΦ" with "[//] [//] [//] [//] [//] [Hc]").
    - iExists _, _. iExact "Hc".
    - iApply big_sepM_list_to_map_cells; last done. apply region_cells_NoDup.
  Qed.

  Lemma wp_delete_all ks m :
    memI m -∗ ([∗ list] k ∈ ks, ∃ c, k ↦ c) ==∗ memI (delete_all ks m).
  Proof.
    induction ks as [|k ks IH]; simpl; first by iIntros "$ _".
    iIntros "Hm [[%c Hk] Hks]". iMod (IH with "Hm Hks") as "Hm".
    iApply (memI_delete with "Hm Hk").
  Qed.

  Lemma wp_free a r live Φ :
    a ≠ 0 → live !! a = Some r →
    hctl live -∗ ([∗ list] k ∈ region_cells a r, ∃ c, k ↦ c) -∗
    (hctl (delete a live) -∗ Φ tt) -∗
    wp (free a) Φ.
  Proof.
    rewrite wp_unseal. iIntros (Ha Hr) "(%o & %n & Hc) Hcells HΦ". iIntros (m) "Hm".
    iDestruct (memI_lookup with "Hm Hc") as %Hl.
    rewrite /free decide_False //. rewrite Hl /= Hr.
    iMod (wp_delete_all with "Hm Hcells") as "Hm".
    iMod (memI_update with "Hm Hc") as "[$ Hc]". iModIntro.
    iApply "HΦ". iExists _, _. iExact "Hc".
  Qed.

  Lemma wp_free_null Φ : Φ tt -∗ wp (free 0) Φ.
  Proof.
    rewrite wp_unseal. iIntros "H" (m) "Hm". iModIntro. rewrite /free. case_decide; [|done]. iFrame.
  Qed.

  Lemma mapsto_excl a c d : a ↦ c -∗ a ↦ d -∗ False.
  Proof. iIntros "H1 H2". by iDestruct (mapsto_ne with "H1 H2") as %?. Qed.

  Lemma wp_if_true {A} (P : Prop) `{!Decision P} (c1 c2 : M A) Φ :
    P → wp c1 Φ -∗ wp (if decide P then c1 else c2) Φ.
  Proof. iIntros (HP) "H". destruct (decide P); [done|contradiction]. Qed.
  Lemma wp_if_false {A} (P : Prop) `{!Decision P} (c1 c2 : M A) Φ :
    ¬ P → wp c2 Φ -∗ wp (if decide P then c1 else c2) Φ.
  Proof. iIntros (HP) "H". destruct (decide P); [contradiction|done]. Qed.

  Lemma tac_wp_load {A} Δ i a z (k : Z -> M A) Φ :
    envs_lookup i Δ = Some (false, a ↦ W z)%I →
    envs_entails Δ (wp (k z) Φ) →
    envs_entails Δ (wp (load a ≫= k) Φ).
  Proof.
    rewrite envs_entails_unseal=> Hl HΔ. iIntros "H". iApply wp_bind.
    rewrite envs_lookup_split //; simpl. iDestruct "H" as "[Ha H]".
    iApply (wp_load with "Ha"). iIntros "Ha". iApply HΔ. by iApply "H".
  Qed.

  Lemma tac_wp_store {A} Δ Δ' i a c v (k : unit -> M A) Φ :
    envs_lookup i Δ = Some (false, a ↦ c)%I →
    wordcell c →
    envs_simple_replace i false (Esnoc Enil i (a ↦ W v)%I) Δ = Some Δ' →
    envs_entails Δ' (wp (k tt) Φ) →
    envs_entails Δ (wp (store a v ≫= k) Φ).
  Proof.
    rewrite envs_entails_unseal=> Hl Hc HΔ' HΔ. iIntros "H". iApply wp_bind.
    rewrite envs_simple_replace_sound //; simpl. iDestruct "H" as "[Ha H]".
    iApply (wp_store with "Ha"); first done. iIntros "Ha".
    iApply HΔ. iApply "H". by iFrame.
  Qed.

  Lemma tac_wp_store_last Δ Δ' i a c v Φ :
    envs_lookup i Δ = Some (false, a ↦ c)%I →
    wordcell c →
    envs_simple_replace i false (Esnoc Enil i (a ↦ W v)%I) Δ = Some Δ' →
    envs_entails Δ' (Φ tt) →
    envs_entails Δ (wp (store a v) Φ).
  Proof.
    rewrite envs_entails_unseal=> Hl Hc HΔ' HΔ. iIntros "H".
    rewrite envs_simple_replace_sound //; simpl. iDestruct "H" as "[Ha H]".
    iApply (wp_store with "Ha"); first done. iIntros "Ha".
    iApply HΔ. iApply "H". by iFrame.
  Qed.

  Lemma tac_wp_load_last Δ i a z Φ :
    envs_lookup i Δ = Some (false, a ↦ W z)%I →
    envs_entails Δ (Φ z) →
    envs_entails Δ (wp (load a) Φ).
  Proof.
    rewrite envs_entails_unseal=> Hl HΔ. iIntros "H".
    rewrite envs_lookup_split //; simpl. iDestruct "H" as "[Ha H]".
    iApply (wp_load with "Ha"). iIntros "Ha". iApply HΔ. by iApply "H".
  Qed.
End wp.

Global Hint Resolve wordcell_W wordcell_U : core.

Ltac wp_load :=
  lazymatch goal with
  | |- envs_entails _ (wp (load ?a ≫= _) _) =>
      eapply (tac_wp_load _ _ a); [iAssumptionCore || fail "wp_load: no cell" a |]; cbv beta
  | |- envs_entails _ (wp (load ?a) _) =>
      eapply (tac_wp_load_last _ _ a); [iAssumptionCore || fail "wp_load: no cell" a |]; cbv beta
  | |- _ => fail "wp_load: not a load"
  end.

Ltac wp_store :=
  lazymatch goal with
  | |- envs_entails _ (wp (store ?a ?v ≫= _) _) =>
      eapply (tac_wp_store _ _ _ a); [iAssumptionCore || fail "wp_store: no cell" a | auto | pm_reduce; reflexivity |]; cbv beta
  | |- envs_entails _ (wp (store ?a ?v) _) =>
      eapply (tac_wp_store_last _ _ _ a); [iAssumptionCore || fail "wp_store: no cell" a | auto | pm_reduce; reflexivity |]; cbv beta
  | |- _ => fail "wp_store: not a store"
  end.

(** Resolve the [if decide P] at the head of the program. *)
Ltac wp_dec_side := first [done | unfold null in *; lia].
Ltac wp_dec := first
  [ iApply wp_if_true; [wp_dec_side|]
  | iApply wp_if_false; [wp_dec_side|] ].
Ltac wp_if :=
  cbv beta; lazymatch goal with
  | |- envs_entails _ (wp (if decide ?P then _ else _) _) => wp_dec
  | |- envs_entails _ (wp ((if decide ?P then _ else _) ≫= _) _) => iApply wp_bind; wp_dec
  end.

Ltac wp_ret := iApply wp_ret.
Ltac wp_bind := iApply wp_bind.
Ltac wp_assert := iApply wp_bind; iApply wp_massert.

(** ** Adequacy: from a WP to a plain statement about running the model *)
Lemma wp_adequacy_frame {A} (E : Prop) (ks : list Z) (c : M A) (m : mem) (φ : A -> mem -> Prop) :
  (∀ `{!memG}, memG_env = E → memG_frame = filter (λ kc, kc.1 ∉ ks) m →
     ([∗ map] k ↦ c ∈ filter (λ kc, kc.1 ∈ ks) m, k ↦ c) ⊢ wp c (λ v, ∀ m', memI m' -∗ ⌜φ v m'⌝)) →
  match c m with Ok v m' => φ v m' | Env _ => E | UB | Fuel => False end.
Proof.
  intros Hwp. apply (mem_soundness m).
  iIntros "[Hm Hall]".
  set (G := MemG E (filter (λ kc, kc.1 ∉ ks) m)).
  rewrite -{2}(map_filter_union_complement (λ kc, kc.1 ∈ ks) m) big_sepM_union; last first.
  { apply map_disjoint_filter_complement. }
  iDestruct "Hall" as "[Hall Hframe]".
  iDestruct (Hwp G with "Hall") as "Hwp"; [done..|].
  rewrite wp_unseal. iMod ("Hwp" with "[Hm Hframe]") as "H".
  { rewrite memI_unseal /memI_def /=. iFrame. }
  iModIntro. destruct (c m) as [v m'| | |]; simpl; try done.
  iDestruct "H" as "[Hm H]". by iDestruct ("H" with "Hm") as %?.
Qed.

Lemma wp_adequacy_gen {A} (E : Prop) (c : M A) (m : mem) (φ : A -> mem -> Prop) :
  (∀ `{!memG}, memG_env = E →
     ([∗ map] k ↦ c ∈ m, k ↦ c) ⊢ wp c (λ v, ∀ m', memI m' -∗ ⌜φ v m'⌝)) →
  match c m with Ok v m' => φ v m' | Env _ => E | UB | Fuel => False end.
Proof.
  intros Hwp. apply (wp_adequacy_frame E (elements (dom m))). intros HG HE _.
  rewrite map_filter_id; [by apply Hwp|].
  intros k x Hk. apply elem_of_elements, elem_of_dom. by exists x.
Qed.

Lemma wp_adequacy {A} (c : M A) (m : mem) (φ : A -> mem -> Prop) :
  (∀ `{!memG}, memG_env = True →
     ([∗ map] k ↦ c ∈ m, k ↦ c) ⊢ wp c (λ v, ∀ m', memI m' -∗ ⌜φ v m'⌝)) →
  safe (c m) φ.
Proof. apply wp_adequacy_gen. Qed.

Lemma wp_adequacy_total {A} (c : M A) (m : mem) (φ : A -> mem -> Prop) :
  (∀ `{!memG}, memG_env = False →
     ([∗ map] k ↦ c ∈ m, k ↦ c) ⊢ wp c (λ v, ∀ m', memI m' -∗ ⌜φ v m'⌝)) →
  succeeds (c m) φ.
Proof. apply wp_adequacy_gen. Qed.
