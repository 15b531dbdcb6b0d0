(** * Proof tools for worlds: parts, and containers as parts. *)
From Verif Require Export World ClientProof ClientSize.
From Verif Require Import ArraySpec.
Global Open Scope Z_scope.

Notation cellsR K := ([∗ map] a ↦ c ∈ K, a ↦ c)%I.

(** ** Changing the frame *)
Lemma cellsR_disjoint (K F : mem) : cellsR K -∗ cellsR F -∗ ⌜K ##ₘ F⌝.
Proof.
  iIntros "HK HF". rewrite map_disjoint_spec. iIntros (a c d Hc Hd).
  iDestruct (big_sepM_lookup with "HK") as "HK"; [exact Hc|].
  iDestruct (big_sepM_lookup with "HF") as "HF"; [exact Hd|]. by iDestruct (mapsto_ne with "HK HF") as %?.
Qed.

Lemma wp_reframe `{G : !memG} (K : mem) {A} (c : M A) Φ :
  cellsR K -∗
  (⌜K ##ₘ memG_frame⌝ -∗ @wp (MemG memG_env (K ∪ memG_frame)) A c Φ) -∗
  wp c (λ v, cellsR K ∗ Φ v).
Proof.
  rewrite !wp_unseal. iIntros "HK Hwp" (m) "Hm".
  rewrite (memI_unseal (H := G)) /memI_def. iDestruct "Hm" as "[Hm HF]".
  iDestruct (cellsR_disjoint with "HK HF") as %Hd. iSpecialize ("Hwp" with "[//]").
  iMod ("Hwp" $! m with "[Hm HK HF]") as "H".
  { rewrite memI_unseal /memI_def /= big_sepM_union //. iFrame. }
  iModIntro. destruct (c m) as [v m'| | |]; try done. iDestruct "H" as "[Hm HΦ]".
  rewrite memI_unseal /memI_def /= big_sepM_union //. iDestruct "Hm" as "(Hm & HK & HF)". iFrame.
Qed.

(** ** The words of the client *)
Definition wordR (a : Z) (v : option Z) : iProp :=
  match v with Some z => a ↦ W z | None => ∃ c, ⌜wordcell c⌝ ∗ a ↦ c end.
Definition wordsR (ws : gmap Z (option Z)) : iProp := [∗ map] a ↦ v ∈ ws, wordR a v.
Definition anyR (a : Z) : iProp := ∃ c, ⌜wordcell c⌝ ∗ a ↦ c.

Lemma wordR_any a v : wordR a v ⊢ anyR a.
Proof. destruct v; simpl; [|done]. iIntros "H". iExists _. iFrame. auto. Qed.
Lemma wordR_cell a v : wordR a v ⊢ ∃ c, ⌜wordcell c ∧ ∀ z, v = Some z → c = W z⌝ ∗ a ↦ c.
Proof.
  destruct v as [z|]; simpl.
  - iIntros "H". iExists _. iFrame. iPureIntro. split; [auto|]. by intros ? [= ->].
  - iIntros "(%c & %Hc & H)". iExists c. iFrame. iPureIntro. split; [done|]. intros ? [=].
Qed.
Lemma anyR_excl a : anyR a -∗ anyR a -∗ False.
Proof. iIntros "(%c & _ & H1) (%d & _ & H2)". iApply (mapsto_excl with "H1 H2"). Qed.

Lemma wordsR_disjoint ws ws' : wordsR ws -∗ wordsR ws' -∗ ⌜ws ##ₘ ws'⌝.
Proof.
  iIntros "H1 H2". rewrite map_disjoint_spec. iIntros (a c d Hc Hd).
  iDestruct (big_sepM_lookup with "H1") as "H1"; [exact Hc|].
  iDestruct (big_sepM_lookup with "H2") as "H2"; [exact Hd|]. rewrite !wordR_any. by iDestruct (anyR_excl with "H1 H2") as %?.
Qed.
Lemma wordsR_union ws ws' : wordsR ws -∗ wordsR ws' -∗ wordsR (ws ∪ ws').
Proof.
  iIntros "H1 H2". iDestruct (wordsR_disjoint with "H1 H2") as %Hd. rewrite /wordsR big_sepM_union //. iFrame.
Qed.

Lemma wordsR_known ws : wordsR ws -∗ cellsR (known ws) ∗ (cellsR (known ws) -∗ wordsR ws).
Proof.
  rewrite /wordsR. induction ws as [|a v ws Ha IH] using map_ind.
  { rewrite /known omap_empty !big_sepM_empty. auto. }
  assert (Hk : known ws !! a = None) by rewrite /known lookup_omap Ha //.
  rewrite big_sepM_insert //. destruct v as [z|].
  - assert (known (<[a := Some z]> ws) = <[a := W z]> (known ws)) as -> by (rewrite /known; by apply omap_insert_Some).
    rewrite big_sepM_insert //. iIntros "[Ha H]". iDestruct (IH with "H") as "[$ H]". iFrame "Ha". simpl. iIntros "[$ HK]". by iApply "H".
  - assert (known (<[a := None]> ws) = known ws) as ->.
    { rewrite /known omap_insert_None //. by apply delete_notin. }
    iIntros "[Ha H]". iDestruct (IH with "H") as "[$ H]". iIntros "HK". iFrame "Ha". by iApply "H".
Qed.

Lemma without_cons a l ws : without (a :: l) ws = delete a (without l ws).
Proof.
  apply map_eq. intros b. apply option_eq. intros v. rewrite lookup_delete_Some /without !map_filter_lookup_Some /=.
  set_solver.
Qed.
Lemma without_nil ws : without [] ws = ws.
Proof. apply map_filter_id. intros; simpl. apply not_elem_of_nil. Qed.

(** Taking words out, without their contents. *)
Lemma wordsR_take l ws : NoDup l → (∀ a, a ∈ l → is_Some (ws !! a)) →
  wordsR ws -∗ ([∗ list] a ∈ l, anyR a) ∗ wordsR (without l ws).
Proof.
  intros Hnd Hin. induction Hnd as [|a l Ha Hnd IH].
  { rewrite without_nil. simpl. auto. }
  iIntros "H". iDestruct (IH with "H") as "[$ H]"; [set_solver|].
  destruct (Hin a) as [v Hv]; [by left|].
  rewrite without_cons /wordsR (big_sepM_delete _ (without l ws) a v).
  - rewrite wordR_any. iDestruct "H" as "[$ $]".
  - apply map_filter_lookup_Some. done.
Qed.
(** Giving words back, contents unknown. *)
Lemma wordsR_unknown l : ([∗ list] a ∈ l, anyR a) -∗ wordsR (unknown l).
Proof.
  induction l as [|a l IH]; [rewrite /wordsR /unknown /= big_sepM_empty; auto|].
  iIntros "[Ha H]". iDestruct (IH with "H") as "H". rewrite /unknown fmap_cons list_to_map_cons -/(unknown l).
  destruct (unknown l !! a) as [v|] eqn:Ha.
  - rewrite /wordsR (big_sepM_delete _ _ _ _ Ha). iDestruct "H" as "[H _]". rewrite wordR_any. by iDestruct (anyR_excl with "Ha H") as %[].
  - rewrite /wordsR big_sepM_insert //. iFrame.
Qed.

(** ** What has to be proved about a part *)
Record part_ok (K0 : mem) (P : part) := PartOk {
  po_body : p_cst P → p_sst P → gmap Z region → iProp;
  po_init m : p_start P m → ([∗ list] a ∈ p_vars P, ∃ c, ⌜m !! a = Some c⌝ ∗ a ↦ c) ⊢ po_body (p_cst0 P) (p_sst0 P) ∅;
  po_vars m : p_start P m → ∀ a, a ∈ p_vars P → is_Some (m !! a);
  po_idle cs s int : po_body cs s int ⊢ ⌜p_idle P s → int = ∅⌝;
  po_step `{!memG} c X int cs s o Φ : memG_env → K0 ⊆ memG_frame → p_pre P c s o →
    int ##ₘ cm_blocks c → int ##ₘ X → cm_blocks c ##ₘ X →
    wordsR (cm_words c) -∗ po_body cs s int -∗ hctl (int ∪ (cm_blocks c ∪ X)) -∗
    (∀ cs' a c' s' int', ⌜p_post P c s o a c' s'⌝ -∗
       ⌜int' ##ₘ cm_blocks c' ∧ int' ##ₘ X ∧ cm_blocks c' ##ₘ X⌝ -∗
       wordsR (cm_words c') -∗ po_body cs' s' int' -∗ hctl (int' ∪ (cm_blocks c' ∪ X)) -∗ Φ (cs', a)) -∗
    wp (p_step P cs o) Φ }.
Global Arguments po_body {_ _}.

(** *** The memory of the client *)
Lemma wp_malloc_words `{!memG} n live Φ : memG_env →
  hctl live -∗
  (∀ p, ⌜0 < p ∧ p mod 16 = 0 ∧ p + 8 * Z.of_nat n < 2 ^ 64 ∧ live !! p = None ∧
        map_Forall (λ b r, apart p (8 * Z.of_nat n) b (region_bytes r)) live⌝ -∗
     hctl (<[p := RWords n]> live) -∗ ([∗ list] a ∈ region_cells p (RWords n), anyR a) -∗ Φ p) -∗
  wp (malloc (8 * Z.of_nat n)) Φ.
Proof.
  iIntros (Henv) "Hc HΦ". rewrite /malloc. replace (8 * Z.of_nat n / 8) with (Z.of_nat n) by (rewrite Z.mul_comm Z.div_mul; lia).
  rewrite Nat2Z.id. iApply (wp_alloc_region with "Hc"); [done|]. iIntros (p H1 H2 H3 H4 H5) "Hc Hw".
  iApply ("HΦ" with "[] Hc [Hw]"); [iPureIntro; done|]. rewrite /cells.
  iApply (big_sepL_impl with "Hw"). iIntros "!>" (???) "H". iExists U. iFrame. auto.
Qed.

Lemma union_swap (a b x : gmap Z region) : a ##ₘ b → a ∪ (b ∪ x) = b ∪ (a ∪ x).
Proof. intros H. rewrite !assoc_L. f_equal. by apply map_union_comm. Qed.

Lemma memory_ok K0 : part_ok K0 memory.
Proof.
  refine (PartOk K0 memory (λ _ _ int, ⌜int = ∅⌝)%I _ _ _ _).
  - iIntros (m _) "_". done.
  - intros m _ a Ha. by apply elem_of_nil in Ha.
  - iIntros (cs s int) "->". done.
  - simpl. iIntros (G [ws bl] X int cs s o Φ Henv HK Hpre Hd1 Hd2 Hd3) "Hw -> Hc HΦ". simpl in *.
    rewrite left_id_L. rewrite /mstep. destruct o as [n|p|p|p v]; simpl in Hpre; wp_bind.
    + wp_bind. iApply (wp_malloc_words with "Hc"); [done|]. iIntros (p (H1 & H2 & H3 & H4 & H5)) "Hc Hn". wp_ret. wp_ret.
      apply lookup_union_None in H4 as [H4 H4']. apply map_Forall_union in H5 as [H5 _]; [|done].
      iDestruct (wordsR_unknown with "Hn") as "Hn". iDestruct (wordsR_disjoint with "Hn Hw") as %Hdj.
      iApply ("HΦ" $! tt _ (CMem _ _) tt ∅ with "[] [] [Hn Hw] [] [Hc]").
      * iPureIntro. exists p. split; [done|]. do 5 (split; [done|]). split; [|reflexivity].
        intros k Hk. simpl. destruct (ws !! k) as [v|] eqn:Hv; [|done]. exfalso.
        assert (is_Some (unknown (region_cells p (RWords n)) !! k)) as [u Hu].
        { exists None. apply elem_of_list_to_map_1.
          - rewrite -list_fmap_compose. apply NoDup_fmap_2; [intros ??; done|]. apply region_cells_NoDup.
          - apply elem_of_list_fmap. by exists k. }
        rewrite map_disjoint_spec in Hdj. by eapply Hdj.
      * iPureIntro. simpl. split; [apply map_disjoint_empty_l|]. split; [apply map_disjoint_empty_l|].
        by apply map_disjoint_insert_l.
      * simpl. iApply (wordsR_union with "Hn Hw").
      * done.
      * simpl. rewrite left_id_L insert_union_l //.
    + destruct Hpre as (Hp0 & n & Hn & Hcells). wp_bind.
      iDestruct (wordsR_take with "Hw") as "[Hn Hw]"; [apply (region_cells_NoDup p (RWords n))|exact Hcells|].
      iApply (wp_free with "Hc [Hn]"); [done|by apply lookup_union_Some_l| |].
      { iApply (big_sepL_impl with "Hn"). iIntros "!>" (???) "(%c & _ & H)". by iExists c. }
      iIntros "Hc". wp_ret. wp_ret. rewrite delete_union (delete_notin X); [|by eapply map_disjoint_Some_r].
      iApply ("HΦ" $! tt _ (CMem _ _) tt ∅ with "[] [] Hw [] [Hc]").
      * iPureIntro. exists n. done.
      * iPureIntro. simpl. split; [apply map_disjoint_empty_l|]. split; [apply map_disjoint_empty_l|]. by apply map_disjoint_delete_l.
      * done.
      * by rewrite left_id_L.
    + destruct Hpre as (v & Hv). wp_bind.
      iDestruct (big_sepM_lookup_acc with "Hw") as "[Ha Hw]"; [exact Hv|].
      iApply (wp_load with "Ha"). iIntros "Ha". iDestruct ("Hw" with "Ha") as "Hw". wp_ret. wp_ret.
      iApply ("HΦ" $! tt _ (CMem ws bl) tt ∅ with "[] [] Hw [] [Hc]").
      * iPureIntro. exists v. done.
      * iPureIntro. done.
      * done.
      * by rewrite left_id_L.
    + destruct Hpre as (u & Hu). wp_bind. rewrite {1}/wordsR (big_sepM_delete _ _ _ _ Hu) wordR_any.
      iDestruct "Hw" as "[(%c & %Hc & Ha) Hw]".
      iApply (wp_store with "Ha"); [done|]. iIntros "Ha". wp_ret. wp_ret.
      iApply ("HΦ" $! tt _ (CMem _ bl) tt ∅ with "[] [] [Ha Hw] [] [Hc]").
      * iPureIntro. done.
      * iPureIntro. done.
      * simpl. rewrite /wordsR -insert_delete_insert big_sepM_insert; [|apply lookup_delete]. iFrame.
      * done.
      * by rewrite left_id_L.
Defined.

(** *** Two parts *)
Lemma both_ok K0 A B : part_ok K0 A → part_ok K0 B → part_ok K0 (both A B).
Proof.
  intros HA HB.
  refine (PartOk K0 (both A B)
    (λ cs s int, ∃ ia ib, ⌜int = ia ∪ ib ∧ ia ##ₘ ib⌝ ∗ po_body HA cs.1 s.1 ia ∗ po_body HB cs.2 s.2 ib)%I _ _ _ _).
  - simpl. iIntros (m [H1 H2]) "H". rewrite big_sepL_app. iDestruct "H" as "[HA HB]".
    iExists ∅, ∅. iSplit; [iPureIntro; split; [by rewrite left_id_L|apply map_disjoint_empty_l]|].
    iSplitL "HA"; [by iApply (po_init _ _ HA)|by iApply (po_init _ _ HB)].
  - simpl. intros m [H1 H2] a [Ha|Ha]%elem_of_app; [by eapply (po_vars _ _ HA)|by eapply (po_vars _ _ HB)].
  - simpl. iIntros (cs s int) "(%ia & %ib & [-> _] & HA & HB)".
    iDestruct (po_idle _ _ HA with "HA") as %H1. iDestruct (po_idle _ _ HB with "HB") as %H2.
    iPureIntro. intros [??]. rewrite H1 // H2 // left_id_L //.
  - simpl. iIntros (G c X int [ca cb] [sa sb] o Φ Henv HK Hpre Hd1 Hd2 Hd3) "Hw (%ia & %ib & [-> %Hab] & HA & HB) Hc HΦ".
    apply map_disjoint_union_l in Hd1 as [Hd1a Hd1b]. apply map_disjoint_union_l in Hd2 as [Hd2a Hd2b]. simpl.
    destruct o as [o|o]; simpl in Hpre; simpl; wp_bind.
    + assert (ia ∪ ib ∪ (cm_blocks c ∪ X) = ia ∪ (cm_blocks c ∪ (ib ∪ X))) as ->.
      { rewrite -assoc_L. f_equal. by apply union_swap. }
      iApply (po_step _ _ HA c (ib ∪ X) with "Hw HA Hc"); [done|done|done|done| | |].
      { apply map_disjoint_union_r. split; by try apply map_disjoint_sym. }
      { apply map_disjoint_union_r. split; by try apply map_disjoint_sym. }
      iIntros (cs' a c' s' int' Hpost (H1 & H2 & H3)) "Hw HA Hc". wp_ret.
      apply map_disjoint_union_r in H2 as [H2b H2X]. apply map_disjoint_union_r in H3 as [H3b H3X].
      iApply ("HΦ" $! (cs', cb) (inl a) c' (s', sb) (int' ∪ ib) with "[] [] Hw [HA HB] [Hc]").
      * done.
      * iPureIntro. rewrite !map_disjoint_union_l. done.
      * iExists int', ib. iFrame. done.
      * rewrite (union_swap _ ib) // assoc_L //.
    + assert (ia ∪ ib ∪ (cm_blocks c ∪ X) = ib ∪ (cm_blocks c ∪ (ia ∪ X))) as ->.
      { rewrite (map_union_comm ia ib) // -assoc_L. f_equal. by apply union_swap. }
      iApply (po_step _ _ HB c (ia ∪ X) with "Hw HB Hc"); [done|done|done|done| | |].
      { apply map_disjoint_union_r. split; by try apply map_disjoint_sym. }
      { apply map_disjoint_union_r. split; by try apply map_disjoint_sym. }
      iIntros (cs' a c' s' int' Hpost (H1 & H2 & H3)) "Hw HB Hc". wp_ret.
      apply map_disjoint_union_r in H2 as [H2b H2X]. apply map_disjoint_union_r in H3 as [H3b H3X].
      iApply ("HΦ" $! (ca, cs') (inr a) c' (sa, s') (ia ∪ int') with "[] [] Hw [HA HB] [Hc]").
      * done.
      * iPureIntro. rewrite !map_disjoint_union_l. done.
      * iExists ia, int'. iFrame. done.
      * rewrite (union_swap _ ia) // assoc_L (map_union_comm int' ia) //.
Defined.

(** ** Containers as parts *)
Record kind_laws (k : kind) : Prop := KindLaws {
  kl_nw : (0 < k_nw k)%nat;
  kl_free o l s : k_free k (k_with k (list_to_set (handed k o)) l s) = list_to_set (handed k o);
  kl_free' l s : k_free k (k_with k (k_free k s) l s) = k_free k s;
  kl_live f l s : k_live k (k_with k f l s) = l;
  kl_elems f l s : k_elems k (k_with k f l s) = k_elems k s;
  kl_with f l f' l' s : k_with k f l (k_with k f' l' s) = k_with k f l s;
  kl_freed s o : k_freed k s o ⊆+ k_elems k s;
  kl_handed s o : k_freed k s o = [] ∨ k_node k o = None;
  kl_pre om K f l X s o : l ##ₘ X → k_pre k om K (k_with k f l s) o → k_pre k om K (k_with k f (l ∪ X) s) o;
  kl_post om K f l X s o a s1 : l ##ₘ X → k_pre k om K (k_with k f l s) o →
    k_post k (k_with k f (l ∪ X) s) o a s1 →
    ∃ l', k_live k s1 = l' ∪ X ∧ l' ##ₘ X ∧ k_post k (k_with k f l s) o a (k_with k (k_free k s1) l' s1);
  kl_nodes om K s o a s1 p : k_pre k om K s o → k_post k s o a s1 → p ∈ k_free k s1 ∨ p ∈ (k_elems k s1).*1 →
    p ∈ k_free k s ∨ p ∈ (k_elems k s).*1 }.

Record kind_ok (fuel : nat) (k : kind) := KindOk {
  ko_core : k_cst k → k_sst k → gmap Z region → iProp;
  ko_with cs s int f l : ko_core cs s int ⊣⊢ ko_core cs (k_with k f l s) int;
  ko_nodes cs s int : ko_core cs s int ⊢ [∗ list] x ∈ k_elems k s, fnode (k_nw k) x.1;
  ko_init m : k_start k m → ([∗ list] a ∈ k_vars k, ∃ c, ⌜m !! a = Some c⌝ ∗ a ↦ c) ⊢ ko_core (k_cst0 k) (k_sst0 k) ∅;
  ko_vars m : k_start k m → ∀ a, a ∈ k_vars k → is_Some (m !! a);
  ko_elems0 : k_elems k (k_sst0 k) = [];
  ko_idle cs s int : ko_core cs s int ⊢ ⌜k_idle k s → int = ∅⌝;
  ko_step `{!memG} om K int cs s o Φ : memG_env → K ⊆ memG_frame →
    (∃ others m, client_ok (k_nw k) om others m) → (size om + 16 ≤ fuel)%nat →
    k_pre k om K s o → int ##ₘ k_live k s →
    pool (k_nw k) om (k_free k s) -∗ ([∗ list] x ∈ k_elems k s, rest (k_nw k) om x.1) -∗
    ko_core cs s int -∗ hctl (int ∪ k_live k s) -∗
    (∀ cs' a s' int', ⌜k_post k s o a s'⌝ -∗ ⌜int' ##ₘ k_live k s'⌝ -∗
       pool (k_nw k) om (k_free k s') -∗ ko_core cs' s' int' -∗ hctl (int' ∪ k_live k s') -∗ Φ (cs', a)) -∗
    wp (k_step k cs o) Φ }.
Global Arguments ko_core {_ _}.

Definition node_ok (nw : nat) (p : Z) : Prop := 0 < p ∧ p mod 8 = 0 ∧ p + 8 * Z.of_nat nw ≤ 2 ^ 64.

Lemma obj_cells_node nw p : obj_cells (p, nw) = node_cells nw p.
Proof. done. Qed.
Lemma rest_cells_node nw p : rest_cells nw p (p, nw) = [].
Proof.
  rewrite /rest_cells obj_cells_node. apply elem_of_nil_inv. intros a [Hn Ha]%elem_of_list_filter. done.
Qed.

Lemma fnodes_NoDup nw (l : list Z) : (0 < nw)%nat → ([∗ list] p ∈ l, fnode nw p) ⊢ ⌜NoDup l⌝.
Proof.
  intros Hnw. induction l as [|a l IH]; simpl; iIntros "H"; [iPureIntro; constructor|].
  iDestruct "H" as "[Ha H]".
  iAssert ⌜a ∉ l⌝%I as %Hni.
  { iIntros (Hin). apply elem_of_list_lookup in Hin as [i Hi].
    iDestruct (big_sepL_lookup with "H") as "H"; first done. by iDestruct (fnode_excl with "Ha H") as %?. }
  rewrite IH. iDestruct "H" as %?. iPureIntro. by constructor.
Qed.

Lemma pool_objs_NoDup nw (om : objmap) : (∀ p o, om !! p = Some o → node_cells nw p ⊆ obj_cells o) →
  pool nw om (dom om) ⊢ ⌜NoDup (objs_cells om)⌝.
Proof.
  intros Hs. rewrite /pool -big_sepM_dom big_opM_map_to_list -cells_NoDup /objs_cells big_sepL_bind.
  apply big_sepL_mono. rewrite /fnode /rest. iIntros (i [p o] Hpo) "[[_ Hn] (%o' & %Ho' & Hr)]".
  apply elem_of_list_lookup_2, elem_of_map_to_list in Hpo. simpl in *. rewrite Hpo in Ho'. injection Ho' as <-.
  rewrite (obj_cells_split nw p o); [|by apply Hs]. rewrite big_sepL_app. iSplitL "Hn".
  - iApply (big_sepL_impl with "Hn"). iIntros "!>" (???) "(%c&_&H)". by iExists c.
  - iApply (big_sepL_impl with "Hr"). iIntros "!>" (???) "(%c&_&H)". by iExists c.
Qed.

Lemma client_ok_intro nw (om : objmap) :
  map_Forall (λ p o, node_ok nw p ∧ node_cells nw p ⊆ obj_cells o) om → NoDup (objs_cells om) →
  ∃ others m, client_ok nw om others m.
Proof.
  intros HF Hnd. exists [], (list_to_map ((λ a, (a, U)) <$> objs_cells om)). split; [|split; [done|]].
  - intros p o Ho. destruct (HF p o Ho) as [(?&?&?)?]. done.
  - intros a Ha. exists U. split; [|by left]. apply elem_of_list_to_map_1; [|by apply elem_of_list_fmap_1_alt with a].
    by rewrite -list_fmap_compose list_fmap_id.
Qed.

Lemma pool_words nw om ps : pool nw om ps -∗ [∗ list] a ∈ elements ps ≫= node_cells nw, anyR a.
Proof.
  rewrite /pool /fnode big_sepS_elements big_sepL_bind. apply big_sepL_mono. iIntros (i p _) "[[_ $] _]".
Qed.

Lemma submseteq_NoDup' {A} (l1 l2 : list A) : l1 ⊆+ l2 → NoDup l2 → NoDup l1.
Proof. intros [l Hl]%submseteq_Permutation Hnd. rewrite Hl in Hnd. by apply NoDup_app in Hnd as (? & _). Qed.

Section lift.
  Variables (fuel : nat) (K0 : mem) (k : kind).
  Hypothesis KL : kind_laws k.
  Hypothesis KO : kind_ok fuel k.
  Notation nw := (k_nw k).

  Lemma objects_lookup c s o p ob : NoDup (handed k o ++ (k_elems k s).*1) →
    objects k c s o !! p = Some ob ↔
    (∃ d, (p, d) ∈ k_freed k s o ∧ ob = block_of c (p, d)) ∨
    (p ∉ (k_freed k s o).*1 ∧ p ∈ handed k o ++ (k_elems k s).*1 ∧ ob = (p, nw)).
  Proof.
    intros Hnd. rewrite /objects lookup_union_Some_raw.
    assert (HV : NoDup (k_freed k s o).*1).
    { eapply submseteq_NoDup'; [|exact Hnd]. trans (k_elems k s).*1; [|by apply submseteq_inserts_l].
      by apply fmap_submseteq, kl_freed. }
    assert (H1 : ∀ ob, (list_to_map ((λ x, (x.1, block_of c x)) <$> k_freed k s o) : objmap) !! p = Some ob ↔
      ∃ d, (p, d) ∈ k_freed k s o ∧ ob = block_of c (p, d)).
    { intros ob'. rewrite -elem_of_list_to_map; [|by rewrite -list_fmap_compose]. rewrite elem_of_list_fmap. split.
      - intros ([q d] & [= -> ->] & Hin). eauto.
      - intros (d & Hin & ->). exists (p, d). done. }
    assert (H2 : (list_to_map ((λ x, (x.1, block_of c x)) <$> k_freed k s o) : objmap) !! p = None ↔ p ∉ (k_freed k s o).*1).
    { rewrite -not_elem_of_list_to_map -list_fmap_compose //. }
    assert (H3 : (list_to_map ((λ p, (p, (p, nw))) <$> handed k o ++ (k_elems k s).*1) : objmap) !! p = Some ob ↔
      p ∈ handed k o ++ (k_elems k s).*1 ∧ ob = (p, nw)).
    { rewrite -elem_of_list_to_map; [|by rewrite -list_fmap_compose list_fmap_id]. rewrite elem_of_list_fmap. split.
      - intros (q & [= -> ->] & Hin). done.
      - intros [Hin ->]. by exists p. }
    rewrite H1 H2 H3. naive_solver.
  Qed.

  Lemma freed_nodes s o p : p ∈ (k_freed k s o).*1 → p ∈ (k_elems k s).*1.
  Proof.
    intros (x & -> & Hx)%elem_of_list_fmap. apply elem_of_list_fmap. exists x. split; [done|].
    eapply elem_of_submseteq; [exact Hx|]. by apply kl_freed.
  Qed.

  Lemma objects_dom c s o : dom (objects k c s o) = list_to_set (handed k o ++ (k_elems k s).*1).
  Proof.
    rewrite /objects dom_union_L !dom_list_to_map_L -!list_fmap_compose.
    change (fst ∘ (λ x, (x.1, block_of c x))) with (λ x : Z * Z, x.1).
    change (fst ∘ (λ p : Z, (p, (p, nw)))) with (λ p : Z, p). rewrite list_fmap_id.
    apply set_eq. intros p. rewrite elem_of_union !elem_of_list_to_set. split; [|by right].
    intros [H|H]; [|done]. apply elem_of_app. right. by eapply freed_nodes.
  Qed.

  Lemma used_NoDup c s o : NoDup (k_freed k s o ≫= λ x, obj_cells (block_of c x)) → NoDup (used k c s o).
  Proof.
    intros Hnd. rewrite /used. destruct (kl_handed k KL s o) as [->|Hn].
    - rewrite app_nil_r /handed. destruct (k_node k o); simpl; [|constructor]. rewrite app_nil_r. apply node_cells_NoDup.
    - rewrite /handed Hn /=. clear -Hnd. induction (k_freed k s o) as [|x l IH]; [constructor|].
      rewrite !bind_cons in Hnd |- *. apply NoDup_app in Hnd as (H1 & H2 & H3). apply NoDup_app. split; [by apply NoDup_filter|].
      split; [|by apply IH]. intros a [_ Ha]%elem_of_list_filter Hb. apply (H2 a Ha).
      apply elem_of_list_bind in Hb as (y & [_ Hb]%elem_of_list_filter & Hy). apply elem_of_list_bind. eauto.
  Qed.

  Definition liftR (cs : k_cst k) (s : k_sst k) (int : gmap Z region) : iProp :=
    ko_core KO cs s int ∗ ⌜∀ p, p ∈ (k_elems k s).*1 → node_ok nw p⌝.

  Lemma lift_rests c s o : NoDup (handed k o ++ (k_elems k s).*1) →
    ([∗ list] x ∈ k_freed k s o, [∗ list] a ∈ rest_cells nw x.1 (block_of c x), anyR a) ⊢
    [∗ set] p ∈ list_to_set (handed k o ++ (k_elems k s).*1), rest nw (objects k c s o) p.
  Proof.
    intros Hnd.
    assert (HV : NoDup (k_freed k s o).*1).
    { eapply submseteq_NoDup'; [|exact Hnd]. trans (k_elems k s).*1; [|by apply submseteq_inserts_l].
      by apply fmap_submseteq, kl_freed. }
    set (N := list_to_set (handed k o ++ (k_elems k s).*1) : gset Z). set (V := list_to_set (k_freed k s o).*1 : gset Z).
    assert (HVN : V ⊆ N).
    { intros p. rewrite /V /N !elem_of_list_to_set => Hp. apply elem_of_app. right. by eapply freed_nodes. }
    rewrite (union_difference_L V N HVN) big_sepS_union; [|by apply elem_of_disjoint; intros q Hq [_ ?]%elem_of_difference]. iIntros "H". iSplitL "H".
    - rewrite /V big_sepS_list_to_set // big_sepL_fmap. iApply (big_sepL_impl with "H"). iIntros "!>" (i [p d] Hi) "H".
      rewrite /rest. iExists (block_of c (p, d)). iFrame "H". iPureIntro. apply objects_lookup; [done|].
      left. exists d. split; [by eapply elem_of_list_lookup_2|done].
    - iApply big_sepS_intro. iIntros "!>" (p Hp). rewrite /rest. iExists (p, nw). rewrite rest_cells_node. iSplit; [|done].
      iPureIntro. apply objects_lookup; [done|]. right. rewrite /V /N elem_of_difference !elem_of_list_to_set in Hp. naive_solver.
  Qed.

  Lemma lift_ok : part_ok K0 (container_part fuel K0 k).
  Proof.
    refine (PartOk K0 (container_part fuel K0 k) liftR _ _ _ _); simpl.
    - iIntros (m Hs) "H". iSplit; [by iApply (ko_init _ _ KO)|]. iPureIntro. rewrite (ko_elems0 _ _ KO). simpl.
      intros p Hp. by apply elem_of_nil in Hp.
    - apply (ko_vars _ _ KO).
    - iIntros (cs s int) "[H _]". by iApply (ko_idle _ _ KO).
    - iIntros (G [ws bl] X int cs s o Φ Henv HK (Hh & Hsub & Hnd & Hused & Hfuel & Hpre) Hd1 Hd2 Hd3) "Hw [HR %Hok] Hc HΦ".
      set (c := CMem ws bl) in *. cbn [cm_words cm_blocks c] in *. pose proof (used_NoDup _ _ _ Hnd) as HndU.
      iDestruct (wordsR_take with "Hw") as "[Hu Hw]"; [exact HndU|exact Hused|].
      rewrite {1}/used big_sepL_app !big_sepL_bind. iDestruct "Hu" as "[Hh Hv]".
      iAssert ([∗ list] p ∈ handed k o, fnode nw p)%I with "[Hh]" as "Hh".
      { iApply (big_sepL_impl with "Hh"). iIntros "!>" (i p Hi) "H". rewrite /fnode. iFrame "H". iPureIntro.
        by apply (Hh p), elem_of_list_lookup_2 with i. }
      iAssert ⌜NoDup (handed k o ++ (k_elems k s).*1)⌝%I as %HndN.
      { rewrite (ko_nodes _ _ KO). iApply (fnodes_NoDup nw); [by apply kl_nw|]. rewrite big_sepL_app big_sepL_fmap. iFrame. }
      iDestruct (lift_rests c s o HndN with "Hv") as "Hr".
      iAssert ⌜NoDup (objs_cells (objects k c s o))⌝%I as %HndO.
      { rewrite (ko_nodes _ _ KO). iApply (pool_objs_NoDup nw).
        - intros p ob. rewrite objects_lookup //. intros [(d & Hin & ->)|(_ & _ & ->)]; [by apply (Hsub (p, d))|done].
        - rewrite /pool objects_dom big_sepS_sep. iFrame "Hr". rewrite big_sepS_list_to_set // big_sepL_app big_sepL_fmap. iFrame. }
      iDestruct (wordsR_known with "Hw") as "[HK Hw]".
      iApply (wp_wand _ (λ v, cellsR (known (without (used k c s o) ws)) ∗
        (cellsR (known (without (used k c s o) ws)) -∗ Φ v))%I with "[-]"); last first.
      { iIntros (v) "[HK H]". iApply ("H" with "HK"). }
      iApply (wp_reframe with "HK"). iIntros (Hdf).
      set (om := objects k c s o) in *. set (K := known (without (used k c s o) ws)) in *.
      rewrite big_sepS_list_to_set // big_sepL_app big_sepL_fmap. iDestruct "Hr" as "[Hrh Hre]".
      destruct (NoDup_app (handed k o) (k_elems k s).*1) as [HA _]. destruct (HA HndN) as (HndH & _ & _). clear HA.
      iApply (@ko_step fuel k KO (MemG memG_env (K ∪ memG_frame)) om (K0 ∪ K) int cs (k_with k (list_to_set (handed k o)) (bl ∪ X) s) o
        with "[Hh Hrh] [Hre] [HR] [Hc]"); simpl.
      + done.
      + apply map_union_least; [by trans (memG_frame); [|apply map_union_subseteq_r]|apply map_union_subseteq_l].
      + apply client_ok_intro; [|done]. intros p ob Hob. rewrite objects_lookup // in Hob.
        destruct Hob as [(d & Hin & ->)|(_ & Hin & ->)].
        * split; [|by apply (Hsub (p, d))]. apply Hok. eapply freed_nodes. apply elem_of_list_fmap. by exists (p, d).
        * split; [|done]. apply elem_of_app in Hin as [Hin|Hin]; [by apply Hh|by apply Hok].
      + assert (Hsz : size om = length (handed k o ++ (k_elems k s).*1)).
        { rewrite -size_dom /om objects_dom size_list_to_set //. }
        rewrite Hsz app_length fmap_length. rewrite /handed. destruct (k_node k o); simpl; lia.
      + apply kl_pre; [done..|]. exact Hpre.
      + rewrite kl_live //. by apply map_disjoint_union_r.
      + rewrite kl_free // /pool big_sepS_list_to_set // big_sepL_sep. iFrame.
      + rewrite kl_elems //.
      + by rewrite -(ko_with _ _ KO).
      + rewrite kl_live //.
      + iIntros (cs' a s1 int' Hpost Hdis) "Hpool HR Hc HK".
        destruct (kl_post k KL _ _ _ _ _ _ _ _ _ Hd3 Hpre Hpost) as (l' & Hl' & Hdl & Hpost').
        rewrite Hl' in Hdis |- *. apply map_disjoint_union_r in Hdis as [Hdi1 Hdi2].
        iDestruct ("Hw" with "HK") as "Hw". iDestruct (pool_words with "Hpool") as "Hn". iDestruct (wordsR_unknown with "Hn") as "Hn".
        iDestruct (wordsR_union with "Hn Hw") as "Hw".
        iApply ("HΦ" $! cs' a (CMem _ l') (k_with k ∅ ∅ s1) int' with "[] [] Hw [HR] Hc").
        * iPureIntro. eexists. split; [exact Hpost'|]. rewrite kl_with // kl_free' // kl_live //.
        * done.
        * iSplit; [by rewrite -(ko_with _ _ KO)|]. iPureIntro. rewrite kl_elems //. intros p Hp.
          destruct (kl_nodes k KL _ _ _ _ _ _ _ (kl_pre k KL _ _ _ _ _ _ _ Hd3 Hpre) Hpost (or_intror Hp)) as [Hp'|Hp'].
          -- rewrite kl_free // elem_of_list_to_set in Hp'. by apply Hh.
          -- rewrite kl_elems // in Hp'. by apply Hok.
  Defined.
End lift.
