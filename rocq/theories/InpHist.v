(** * Proof of the history theorem of the inplace trie *)
From Verif Require Export InpProof.
Global Open Scope Z_scope.
Local Arguments wcells : simpl never.
Local Arguments node_cells : simpl never.
Local Arguments seq : simpl never.

Section hist.
  Context `{!memG}.

  (** ** Taking the trie apart *)
  Lemma fnode8 p : fnode 8 p ⊣⊢ ⌜0 < p⌝ ∗ anyword (f_next p) ∗ anyword (f_prev p) ∗ anyword (f_data p) ∗ freemap p ∗ anyword (f_key p).
  Proof.
    rewrite /fnode. change (node_cells 8 p) with (wcells p (3 + (4 + 1))). rewrite !wcells_app !big_sepL_app.
    rewrite /wcells /freemap /f_next /f_prev /f_data /f_key.
    change (seq 0 3) with [0%nat; 1%nat; 2%nat]. change (seq 0 1) with [0%nat]. cbn [fmap list_fmap big_opL].
    replace (p + 8 * Z.of_nat 0) with p by lia. replace (p + 8 * Z.of_nat 1) with (p + 8) by lia. replace (p + 8 * Z.of_nat 2) with (p + 16) by lia.
    replace (p + 8 * Z.of_nat 3) with (p + 24) by lia. replace (p + 24 + 8 * Z.of_nat 4 + 8 * Z.of_nat 0) with (p + 56) by lia.
    iSplit.
    - iIntros "($ & ($ & $ & $ & _) & $ & ($ & _))".
    - iIntros "($ & $ & $ & $ & $ & $)".
  Qed.
  Lemma nodeI_fnode x nx pv : wordcell (e_i x) → nodeI x nx pv -∗ freemap (e_p x) -∗ fnode 8 (e_p x).
  Proof.
    iIntros (Hi) "(% & H1 & H2 & H3 & H4) Hm". rewrite fnode8. iFrame "Hm".
    iSplitR; [done|]. iSplitL "H1"; [|iSplitL "H2"; [|iSplitL "H3"]]; iExists _; iFrame; iPureIntro; try done; right; eauto.
  Qed.

  Definition imnodes (ks : kmapT) : iProp := [∗ map] k ↦ l ∈ ks, [∗ list] x ∈ l, fnode 8 (e_p x).

  Lemma imnodes_split dg N ks : (∀ k, is_Some (ks !! k) → 0 ≤ dg k < Z.of_nat N) →
    ([∗ list] j ∈ seq 0 N, imnodes (sub dg (Z.of_nat j) ks)) -∗ imnodes ks.
  Proof.
    intros HN. rewrite {2}(_ : ks = filter (λ kv, 0 ≤ dg kv.1 < Z.of_nat N) ks); last first.
    { symmetry. apply map_filter_id. intros k l Hk. simpl. apply HN. by eexists. }
    clear HN. induction N as [|N IH].
    - iIntros "_". rewrite (_ : filter _ ks = ∅); [by rewrite /imnodes big_sepM_empty|].
      apply map_filter_empty_iff. intros k l _. simpl. lia.
    - rewrite seq_S big_sepL_app /=. iIntros "(H & Hj & _)". iDestruct (IH with "H") as "H".
      assert (Hd : filter (λ kv, 0 ≤ dg kv.1 < Z.of_nat N) ks ##ₘ sub dg (Z.of_nat N) ks).
      { apply map_disjoint_spec. intros k l l' [_ Hl]%map_filter_lookup_Some [_ Hl']%map_filter_lookup_Some. simpl in *. lia. }
      rewrite (_ : filter (λ kv, 0 ≤ dg kv.1 < Z.of_nat (S N)) ks =
        filter (λ kv, 0 ≤ dg kv.1 < Z.of_nat N) ks ∪ sub dg (Z.of_nat N) ks).
      + rewrite /imnodes big_sepM_union //. iFrame.
      + apply map_eq. intros k. apply option_eq. intros l. rewrite lookup_union_Some // /sub !map_filter_lookup_Some /=.
        destruct (decide (dg k = Z.of_nat N)); split; intros Hx; [right|destruct Hx|left|destruct Hx]; split; try tauto; try lia.
  Qed.
  Lemma iseg_nodes l k pv nx : Forall (λ x, e_i x = W k) l → iseg l pv nx -∗ ([∗ list] x ∈ l, freemap (e_p x)) -∗ [∗ list] x ∈ l, fnode 8 (e_p x).
  Proof.
    iIntros (HF) "H Hm". iInduction l as [|x l] "IH" forall (pv HF); [done|].
    rewrite iseg_cons !big_sepL_cons. iDestruct "H" as "[Hx H]". iDestruct "Hm" as "[Hm Hms]". inversion HF as [|? ? Hi HF']; subst. iSplitL "Hx Hm".
    - iApply (nodeI_fnode with "Hx Hm"). rewrite Hi. right; eauto.
    - by iApply ("IH" with "[%] H").
  Qed.
  Lemma leafI_nodes h k l : leafI h k l -∗ freemap h -∗ [∗ list] x ∈ l, fnode 8 (e_p x).
  Proof.
    iIntros "[(%Hne & %HF & ->) [H Hms]] Hm". iApply (iseg_nodes with "H"); [done|]. destruct l as [|x l]; [done|].
    rewrite big_sepL_cons. iFrame.
  Qed.
  Lemma kidsI_open N dg T b ks : (∀ k, is_Some (ks !! k) → 0 ≤ dg k < Z.of_nat N) →
    (∀ h ks, T h ks -∗ imnodes ks) →
    kidsI N dg T b ks -∗ ([∗ list] a ∈ wcells b N, anyword a) ∗ imnodes ks.
  Proof.
    iIntros (HN HT) "(%hf & Hw & H)". iSplitL "Hw".
    - rewrite /mapw /wcells big_sepL_fmap. iApply (big_sepL_impl with "Hw"). iIntros "!>" (? ? _) "H". iExists _. iFrame. iPureIntro. right; eauto.
    - iApply imnodes_split; [done|]. iApply (big_sepL_impl with "H"). iIntros "!>" (? ? _) "H". by iApply HT.
  Qed.
  Lemma trieI_open n h ks : trieI n h ks -∗ imnodes ks.
  Proof.
    revert h ks. induction n as [|n IH]; intros h ks; rewrite trieI_cases.
    - iIntros "[[_ ->]|H]"; [by rewrite /imnodes big_sepM_empty|]. iDestruct "H" as (n' k l ks' ([=] & _)) "_".
    - iIntros "[[_ ->]|H]"; [by rewrite /imnodes big_sepM_empty|]. iDestruct "H" as (n' k l ks' ([= <-] & -> & Hk)) "[Hl Hk]".
      iDestruct (kidsI_open with "Hk") as "[Hw Hm]"; [intros; apply idg_range|done|].
      rewrite /imnodes big_sepM_insert //. iFrame "Hm". iApply (leafI_nodes with "Hl Hw").
  Qed.
  Lemma imnodes_ins k x ks : imnodes (ins k x ks) ⊣⊢ imnodes ks ∗ fnode 8 (e_p x).
  Proof.
    rewrite /imnodes /ins. destruct (ks !! k) as [l|] eqn:Hk; simpl.
    - rewrite big_sepM_insert_delete (big_sepM_delete _ ks k) // big_sepL_app big_sepL_singleton. iSplit; iIntros "[[$ $] $]".
    - rewrite big_sepM_insert // big_sepL_singleton. iSplit; iIntros "[$ $]".
  Qed.
  Lemma imnodes_of es : imnodes (kmap_of es) ⊣⊢ [∗ list] e ∈ es, fnode 8 (te_p e).
  Proof.
    induction es as [|e es IH] using rev_ind; [by rewrite /imnodes big_sepM_empty|].
    rewrite kmap_of_snoc imnodes_ins IH big_sepL_app big_sepL_singleton. done.
  Qed.
End hist.

Lemma ibuckets_range es fr om : es_ok om fr es → ∀ k, is_Some (kmap_of es !! k) → 0 ≤ ibdig k < Z.of_nat 64.
Proof.
  intros (_ & _ & Hk & _) k Hs. apply elem_of_dom in Hs. rewrite kmap_of_dom elem_of_keys in Hs. destruct Hs as (e & He & <-).
  rewrite Forall_forall in Hk. specialize (Hk _ He). by apply ibdig_range.
Qed.

Section istep.
  Context `{!memG}.
  Variables (om : objmap) (tb : Z).
  Hypothesis Hom : ∃ others m, client_ok 8 om others m.

  Definition bucketsI (es : list tent) : iProp := kidsI 64 ibdig (trieI 15) tb (kmap_of es).

  Lemma iom_node p : p ∈ dom om → 0 < p.
  Proof. intros [o Ho]%elem_of_dom. destruct Hom as (oth & m & (Hn & _)). by destruct (Hn _ _ Ho) as (H1 & _). Qed.
  Lemma iom_small : Z.of_nat (size om) < 2 ^ 58.
  Proof. destruct Hom as (others & m & Hok). pose proof (client_size_words _ _ _ _ Hok). lia. Qed.

  Lemma wp_inp_let_ptr t k Φ : 0 ≤ k < 2 ^ 32 → Φ (inp_bucket t + 8 * ibdig k) -∗ wp (inp_let_ptr t k) Φ.
  Proof.
    iIntros (Hk) "H". rewrite /inp_let_ptr /shr_key. wp_bind. iApply wp_if_true; [done|]. wp_ret.
    wp_assert. { apply bool_decide_eq_true. pose proof (ibdig_range k Hk). change INP_BUCKET_SHIFT with 26. change INP_BUCKET_MAX with 64. rewrite /ibdig in H0. lia. }
    by wp_ret.
  Qed.
  Lemma sub_bdig key (ks : kmapT) : ∀ k, is_Some (sub ibdig (ibdig key) ks !! k) → ibdig k = ibdig key.
  Proof. intros k. rewrite sub_lookup. destruct (decide (ibdig k = ibdig key)); [done|by intros []]. Qed.

  Lemma wp_inp_insert fuel fr es p d k Φ : (14 ≤ fuel)%nat → es_ok om fr es → p ∈ fr → 0 ≤ k < 2 ^ 32 →
    bucketsI es -∗ fnode 8 p -∗
    (bucketsI (es ++ [TEnt p d k]) -∗ Φ (InpTrie tb (Z.of_nat (length (es ++ [TEnt p d k]))))) -∗
    wp (inp_insert fuel (InpTrie tb (Z.of_nat (length es))) p d k) Φ.
  Proof.
    iIntros (Hf Hes Hp Hk) "HB Hf HΦ". rewrite fnode8. iDestruct "Hf" as "(%Hp0 & Hn & Hv & (%c1 & % & Hd) & Hm & (%c2 & % & Hi))".
    pose proof (es_ok_length _ _ _ Hes) as Hlen. pose proof iom_small.
    rewrite /inp_insert. wp_bind. iApply wp_inp_let_ptr; [done|]. wp_store. wp_store. wp_bind. cbn [inp_bucket inp_count].
    iApply (wp_clear_loop (f_map p 0) 4 with "[Hm]"). { rewrite /f_map. replace (p + 24 + 8 * 0) with (p + 24) by lia. iExact "Hm". }
    rewrite /f_map. replace (p + 24 + 8 * 0) with (p + 24) by lia. iIntros "Hm". wp_bind.
    iDestruct (kidsI_acc _ _ _ _ _ (ibdig k) with "HB") as (h) "(Hw & HT & HB)"; [by apply ibdig_range|].
    set (e := TEnt p d k).
    iApply (wp_inp_bucket_insert fuel _ k (toel e) (sub ibdig (ibdig k) (kmap_of es)) with "[Hw HT] [Hn Hv Hd Hi] [Hm]"); [done|apply sub_bdig|done|iExists h; iFrame| | |].
    { rewrite /freshI /=. iSplit; [done|]. iFrame. }
    { iExact "Hm". }
    iIntros "(%h' & Hw & HT)". wp_ret.
    replace (add64 (Z.of_nat (length es)) 1) with (Z.of_nat (length (es ++ [e]))); last first.
    { rewrite app_length /add64 Z.mod_small /=; lia. }
    iApply "HΦ". iApply ("HB" $! h' with "[%] Hw [HT]").
    { intros k' Hk'. rewrite kmap_of_snoc /ins lookup_insert_ne //. simpl. congruence. }
    { rewrite kmap_of_snoc sub_ins decide_True //. }
  Qed.

  Lemma wp_inp_remove fuel fr es1 e es2 remove Φ : (14 ≤ fuel)%nat → es_ok om fr (es1 ++ e :: es2) →
    remove = te_p e ∨ remove = 0 ∧ Forall (λ e', te_k e' ≠ te_k e) es1 →
    bucketsI (es1 ++ e :: es2) -∗
    (∀ nx pv, bucketsI (es1 ++ es2) -∗ nodeI (toel e) nx pv -∗ freemap (te_p e) -∗ Φ (te_p e)) -∗
    wp (inp_bucket_remove fuel INP_BUCKET_SHIFT (tb + 8 * ibdig (te_k e)) remove (te_k e)) Φ.
  Proof.
    iIntros (Hf Hes Hrem) "HB HΦ". set (k := te_k e). set (es := es1 ++ e :: es2).
    assert (Hk : 0 ≤ k < 2 ^ 32). { destruct Hes as (_ & _ & Hk & _). rewrite Forall_forall in Hk. apply Hk. set_solver. }
    assert (Hep : 0 < te_p e). { destruct Hes as (_ & _ & _ & Hd & _). rewrite Forall_forall in Hd. apply iom_node, Hd. set_solver. }
    iDestruct (kidsI_acc _ _ _ _ _ (ibdig k) with "HB") as (h) "(Hw & HT & HB)"; [by apply ibdig_range|].
    assert (Hupd : kmap_of (es1 ++ es2) = upd k ((toel <$> with_key k es1) ++ (toel <$> with_key k es2)) (kmap_of es)).
    { rewrite -fmap_app -with_key_app. apply kmap_of_remove. }
    change (te_p e) with (e_p (toel e)) in Hrem |- *.
    iApply (wp_inp_bucket_remove fuel _ k remove (toel <$> with_key k es1) (toel e) (toel <$> with_key k es2) with "[Hw HT]");
      [done|apply (sub_bdig k (kmap_of es))| |done| |iExists h; iFrame|].
    { rewrite sub_lookup decide_True //. apply kmap_of_here. }
    { destruct Hrem as [->|[-> HF]]; [by left|right]. split; [done|]. by rewrite (with_key_none _ _ HF). }
    iIntros (nx pv) "(%h' & Hw & HT) Hn Hm". iApply ("HΦ" with "[Hw HT HB] Hn Hm").
    iApply ("HB" $! h' with "[%] Hw [HT]").
    { intros k' Hk'. rewrite Hupd upd_lookup decide_False //. congruence. }
    { rewrite Hupd sub_upd decide_True //. }
  Qed.

  Lemma wp_inp_remove_none fuel es k Φ : (14 ≤ fuel)%nat → 0 ≤ k < 2 ^ 32 → with_key k es = [] →
    bucketsI es -∗ (bucketsI es -∗ Φ 0) -∗ wp (inp_bucket_remove fuel INP_BUCKET_SHIFT (tb + 8 * ibdig k) 0 k) Φ.
  Proof.
    iIntros (Hf Hk Hno) "HB HΦ". iDestruct (kidsI_acc _ _ _ _ _ (ibdig k) with "HB") as (h) "(Hw & HT & HB)"; [by apply ibdig_range|].
    iApply (wp_inp_remove_absent with "[Hw HT]"); [done|apply (sub_bdig k (kmap_of es))| |iExists h; iFrame|].
    { rewrite sub_lookup decide_True // kmap_of_lookup Hno //. }
    iIntros "(%h' & Hw & HT)". iApply "HΦ". iApply ("HB" with "[//] Hw HT").
  Qed.

  Lemma wp_inp_bucket fuel es t k Φ : (14 ≤ fuel)%nat → inp_bucket t = tb → 0 ≤ k < 2 ^ 32 →
    bucketsI es -∗ (∀ l, ⌜l = toel <$> with_key k es⌝ -∗ iseg l (last_p 0 l) 0 -∗ (iseg l (last_p 0 l) 0 -∗ bucketsI es) -∗ Φ (hd_p l 0)) -∗
    wp (inp_bucket_of fuel t k) Φ.
  Proof.
    iIntros (Hf Ht Hk) "HB HΦ". rewrite /inp_bucket_of. wp_bind. iApply wp_inp_let_ptr; [done|]. rewrite Ht.
    iDestruct (kidsI_acc _ _ _ _ _ (ibdig k) with "HB") as (h) "(Hw & HT & HB)"; [by apply ibdig_range|].
    wp_load. change INP_BUCKET_SHIFT with (ishift 14). iApply (wp_inp_bucket_loop with "HT"); [done|lia|by intros; apply agreeI_14, (sub_bdig k (kmap_of es))|].
    iIntros (l Hl) "Hl HT". rewrite sub_lookup decide_True // kmap_of_default in Hl.
    iApply ("HΦ" with "[//] Hl"). iIntros "Hl". iApply ("HB" with "[//] Hw"). by iApply "HT".
  Qed.
  Lemma leafI_index h k l x : x ∈ l → leafI h k l -∗ f_key (e_p x) ↦ W k ∗ (f_key (e_p x) ↦ W k -∗ leafI h k l).
  Proof.
    iIntros ((l1 & l2 & ->)%elem_of_list_split) "[%HF [HL Hm]]".
    assert (Hx : e_i x = W k). { destruct HF as (_ & HF & _). rewrite Forall_forall in HF. apply HF. set_solver. }
    rewrite /leafI iseg_app iseg_cons /nodeI. iDestruct "HL" as "(H1 & (Hp & Hn & Hv & Hd & Hi) & H2)". rewrite Hx. iFrame "Hi".
    iIntros "Hi". iFrame. done.
  Qed.
  (** The key of a node in the trie. *)
  Lemma trieI_acc n h ks key l x : ks !! key = Some l → x ∈ l →
    trieI n h ks -∗ f_key (e_p x) ↦ W key ∗ (f_key (e_p x) ↦ W key -∗ trieI n h ks).
  Proof.
    revert h ks. induction n as [|n IH]; intros h ks Hk Hx; rewrite trieI_cases.
    - iIntros "[[_ ->]|H]"; [by rewrite lookup_empty in Hk|]. iDestruct "H" as (n' k l' ks' ([=] & _)) "_".
    - iIntros "[[_ ->]|H]"; [by rewrite lookup_empty in Hk|]. iDestruct "H" as (n' k l' ks' ([= <-] & -> & Hk')) "[Hl Hk]".
      destruct (decide (k = key)) as [->|Hne].
      + rewrite lookup_insert in Hk. injection Hk as ->. iDestruct (leafI_index with "Hl") as "[$ Hl]"; [done|]. iIntros "H". iSpecialize ("Hl" with "H").
        iRight. iExists n, key, l, ks'. by iFrame.
      + rewrite lookup_insert_ne // in Hk.
        iDestruct (kidsI_acc _ _ _ _ _ (idg n key) with "Hk") as (h1) "(Hw & HT & Hks)"; [apply idg_range|].
        iDestruct (IH with "HT") as "[$ HT]"; [|done|]. { rewrite sub_lookup decide_True //. }
        iIntros "H". iSpecialize ("HT" with "H"). iRight. iExists n, k, l', ks'. iSplit; [done|]. iFrame "Hl". iApply ("Hks" with "[//] Hw HT").
  Qed.
  Lemma bucketsI_key es e : e ∈ es → 0 ≤ te_k e < 2 ^ 32 →
    bucketsI es -∗ f_key (te_p e) ↦ W (te_k e) ∗ (f_key (te_p e) ↦ W (te_k e) -∗ bucketsI es).
  Proof.
    iIntros (He Hk) "HB". iDestruct (kidsI_acc _ _ _ _ _ (ibdig (te_k e)) with "HB") as (h) "(Hw & HT & HB)"; [by apply ibdig_range|].
    assert (Hin : e ∈ with_key (te_k e) es) by (by apply elem_of_list_filter).
    iDestruct (trieI_acc _ _ _ (te_k e) (toel <$> with_key (te_k e) es) (toel e) with "HT") as "[$ HT]".
    { rewrite sub_lookup decide_True // kmap_of_lookup. by destruct (with_key (te_k e) es); [apply elem_of_nil in Hin|]. }
    { by apply elem_of_list_fmap_1. }
    iIntros "H". iApply ("HB" with "[//] Hw"). by iApply "HT".
  Qed.
  Lemma bucketsI_empty : ([∗ list] a ∈ wcells tb 64, a ↦ W 0) -∗ bucketsI [].
  Proof. iIntros "Hw". iApply (kidsI_empty with "Hw"). apply trieI_null. Qed.
  Lemma bucketsI_open fr es : es_ok om fr es → bucketsI es -∗
    ([∗ list] a ∈ wcells tb 64, anyword a) ∗ [∗ list] e ∈ es, fnode 8 (te_p e).
  Proof.
    iIntros (Hes) "HB". iDestruct (kidsI_open with "HB") as "H"; [by eapply ibuckets_range|by intros; apply trieI_open|]. rewrite imnodes_of. iExact "H".
  Qed.
  Lemma inodes_give_back es fr : ([∗ list] e ∈ es, fnode 8 (te_p e)) -∗ ([∗ list] e ∈ es, rest 8 om (te_p e)) -∗ pool 8 om fr -∗
    pool 8 om (fr ∪ list_to_set (te_p <$> es)).
  Proof.
    iIntros "Hn Hr Hp". iInduction es as [|x es] "IH" forall (fr); csimpl.
    - by rewrite right_id_L.
    - iDestruct "Hn" as "[Hn Hns]". iDestruct "Hr" as "[Hr Hrs]". rewrite assoc_L. iApply ("IH" with "Hns Hrs").
      by iApply (pool_give 8 with "Hn Hr"); [lia|].
  Qed.
  Local Opaque bucketsI.

  Definition IR (cs : option inptrie) (s : istate) : iProp :=
    let fr := ks_free (is_k s) in let es := ks_es (is_k s) in
    (pool 8 om fr ∗ ⌜es_ok om fr es⌝ ∗
    if is_init s then
      ⌜cs = Some (InpTrie tb (Z.of_nat (length es)))⌝ ∗ bucketsI es ∗ [∗ list] e ∈ es, rest 8 om (te_p e)
    else ⌜cs = None ∧ es = []⌝ ∗ [∗ list] a ∈ wcells tb 64, anyword a)%I.

  Lemma wp_istep fuel cs s o Φ : (14 ≤ fuel)%nat → ipre s o →
    IR cs s -∗ (∀ cs' a s', ⌜ipost s o a s'⌝ -∗ IR cs' s' -∗ Φ (cs', a)) -∗ wp (istep fuel tb cs o) Φ.
  Proof.
    iIntros (Hf Hpre) "(Hpool & %Hes & HR) HΦ". pose proof (es_ok_length _ _ _ Hes) as Hlen. pose proof iom_small as Hsm.
    destruct s as [[fr es] ini]. cbn [is_k is_init ks_free ks_es] in *.
    assert (o = IInit ∨ o ≠ IInit) as [->|Hno] by (destruct o; auto).
    { iAssert (([∗ list] a ∈ wcells tb 64, anyword a) ∗ pool 8 om (fr ∪ list_to_set (te_p <$> es)))%I with "[HR Hpool]" as "[Hw Hpool]".
      { destruct ini.
        - iDestruct "HR" as "(_ & HB & Hr)". iDestruct (bucketsI_open with "HB") as "[$ Hn]"; [done|]. iApply (inodes_give_back with "Hn Hr Hpool").
        - iDestruct "HR" as "([_ ->] & $)". rewrite /= right_id_L. iFrame. }
      iAssert (wp (t ← inp_init tb; mret (Some t, KNone)) Φ) with "[-]" as "H"; [|destruct cs; iExact "H"].
      rewrite /inp_init. wp_bind. wp_bind. iApply (wp_clear_loop with "Hw"). iIntros "Hw". wp_ret. wp_ret.
      iApply ("HΦ" with "[//]"). rewrite /IR. cbn [is_k is_init ks_free ks_es]. iFrame "Hpool".
      iSplit; [iPureIntro; by apply es_ok_clear|]. iSplit; [done|]. iSplitL; [|done]. by iApply bucketsI_empty. }
    assert (ini = true) as ->. { destruct o; [done|..]; simpl in Hpre; tauto. }
    iDestruct "HR" as (->) "(HB & Hr)".
    destruct o as [|o|]; [done| |].
    - destruct Hpre as [_ Hpre]. destruct o as [p d k|k|p|k|k| ]; cbn [kpre ks_free ks_es is_k] in Hpre; rewrite /istep.
      + (* insert *)
        destruct Hpre as [Hp Hk]. iDestruct (pool_take with "Hpool") as "(Hn & Hrp & Hpool)"; first done.
        wp_bind. iApply (wp_inp_insert with "HB Hn"); [lia|done..|].
        iIntros "HB". wp_ret. iApply ("HΦ" with "[]"). { iPureIntro. eexists. split; [split; reflexivity|reflexivity]. }
        rewrite /IR. cbn [is_k is_init ks_free ks_es]. iFrame "Hpool". iSplit; [iPureIntro; by apply es_ok_insert|].
        iSplit; [done|]. rewrite big_sepL_app big_sepL_singleton. iFrame "HB Hr Hrp".
      + (* remove *)
        wp_bind. rewrite /inp_remove. wp_bind. iApply wp_inp_let_ptr; [done|]. cbn [inp_bucket inp_count].
        destruct (with_key k es) as [|e l] eqn:Hw.
        * wp_bind. iApply (wp_inp_remove_none with "HB"); [lia|done|done|]. iIntros "HB". wp_if. wp_ret. wp_ret.
          iApply ("HΦ" $! _ _ (IState (KState fr es) true) with "[]").
          { iPureIntro. exists (KState fr es). split; [|done]. right. split; [by apply with_key_nil|done]. }
          rewrite /IR. cbn [is_k is_init ks_free ks_es]. iFrame "Hpool". iSplit; [done|]. iSplit; [done|]. iFrame "HB Hr".
        * destruct (with_key_first _ _ _ _ Hw) as (es1 & es2 & Hes' & Hke & HF & _).
          subst k es. wp_bind. rewrite app_length /= in Hlen.
          iApply (wp_inp_remove with "HB"); [lia|done|by right|].
          iIntros (nx pv) "HB Hn Hm". iAssert ⌜0 < te_p e⌝%I as %Hp0; [by iDestruct "Hn" as "($ & _)"|].
          iApply wp_if_false; [rewrite /null; lia|].
          iAssert (f_data (te_p e) ↦ W (te_d e) ∗ (f_data (te_p e) ↦ W (te_d e) -∗ nodeI (toel e) nx pv))%I with "[Hn]" as "[Hd Hn]".
          { rewrite /nodeI. iDestruct "Hn" as "($ & $ & $ & $ & $)". by iIntros "$". }
          wp_load. iSpecialize ("Hn" with "Hd"). wp_ret. wp_ret.
          iDestruct (nodeI_fnode with "Hn Hm") as "Hn"; [right; simpl; eauto|].
          iApply ("HΦ" with "[]").
          { iPureIntro. eexists. split; [left; exists es1, e, es2; split_and!; [done|done|done|reflexivity|reflexivity]|reflexivity]. }
          rewrite big_sepL_app big_sepL_cons. iDestruct "Hr" as "(Hr1 & Hre & Hr2)".
          iDestruct (pool_give 8 with "Hn Hre Hpool") as "Hpool"; [lia|].
          rewrite /IR. cbn [is_k is_init ks_free ks_es]. iFrame "Hpool". iSplit; [iPureIntro; by apply es_ok_remove|].
          iSplit; [|rewrite big_sepL_app; iFrame "HB Hr1 Hr2"].
          iPureIntro. cbn [fst]. do 2 f_equal. rewrite !app_length /= /sub64. rewrite Z.mod_small; lia.
      + (* remove_existing *)
        apply elem_of_list_fmap in Hpre as (e & -> & He).
        assert (Hk : 0 ≤ te_k e < 2 ^ 32). { destruct Hes as (_ & _ & Hk & _). rewrite Forall_forall in Hk. by apply Hk. }
        wp_bind. rewrite /inp_remove_existing. iDestruct (bucketsI_key with "HB") as "[Hi HB]"; [done|done|].
        wp_load. iSpecialize ("HB" with "Hi"). wp_bind. iApply wp_inp_let_ptr; [done|]. cbn [inp_bucket inp_count].
        apply elem_of_list_split in He as (es1 & es2 & ->). rewrite app_length /= in Hlen.
        wp_bind. iApply (wp_inp_remove with "HB"); [lia|done|by left|].
        iIntros (nx pv) "HB Hn Hm". wp_assert; [by apply bool_decide_eq_true|].
        iAssert (f_data (te_p e) ↦ W (te_d e) ∗ (f_data (te_p e) ↦ W (te_d e) -∗ nodeI (toel e) nx pv))%I with "[Hn]" as "[Hd Hn]".
        { rewrite /nodeI. iDestruct "Hn" as "($ & $ & $ & $ & $)". by iIntros "$". }
        wp_load. iSpecialize ("Hn" with "Hd"). wp_ret. wp_ret.
        iDestruct (nodeI_fnode with "Hn Hm") as "Hn"; [right; simpl; eauto|].
        iApply ("HΦ" with "[]").
        { iPureIntro. eexists. split; [|reflexivity]. exists es1, (te_d e), (te_k e), es2. split; [by destruct e|]. split; reflexivity. }
        rewrite big_sepL_app big_sepL_cons. iDestruct "Hr" as "(Hr1 & Hre & Hr2)".
        iDestruct (pool_give 8 with "Hn Hre Hpool") as "Hpool"; [lia|].
        rewrite /IR. cbn [is_k is_init ks_free ks_es]. iFrame "Hpool". iSplit; [iPureIntro; by apply es_ok_remove|].
        iSplit; [|rewrite big_sepL_app; iFrame "HB Hr1 Hr2"].
        iPureIntro. cbn [fst]. do 2 f_equal. rewrite !app_length /= /sub64. rewrite Z.mod_small; lia.
      + (* search *)
        wp_bind. rewrite /inp_search. wp_bind. iApply (wp_inp_bucket with "HB"); [lia|done|done|]. iIntros (l Hl) "Hl HB".
        iAssert (bucketsI es -∗ Φ (Some (InpTrie tb (Z.of_nat (length es))), KWord (match with_key k es with e :: _ => te_d e | [] => 0 end)))%I
          with "[-HB Hl]" as "Hfin".
        { iIntros "HB". iApply ("HΦ" $! _ _ (IState (KState fr es) true) with "[]"). { iPureIntro. exists (KState fr es). by split. }
          rewrite /IR. cbn [is_k is_init ks_free ks_es]. iFrame "Hpool". iSplit; [done|]. iSplit; [done|]. iFrame "HB Hr". }
        destruct (with_key k es) as [|e l'] eqn:Hw; subst l.
        * wp_if. wp_ret. wp_ret. iApply "Hfin". by iApply "HB".
        * rewrite fmap_cons iseg_cons. iDestruct "Hl" as "[(%Hp & Hn & Hv & Hd & Hi) Hl]". cbn [hd_p toel e_p e_d] in Hp |- *.
          iApply wp_if_false; [rewrite /null; lia|]. wp_load. wp_ret. iApply "Hfin". iApply "HB". iFrame. done.
      + (* bucket *)
        wp_bind. iApply (wp_inp_bucket with "HB"); [lia|done|done|]. iIntros (l Hl) "Hl HB". wp_bind.
        iApply (wp_inp_walk with "Hl"). { rewrite Hl fmap_length. etrans; [apply filter_length|]. simpl inp_count. rewrite Nat2Z.id. done. }
        iIntros "Hl". iSpecialize ("HB" with "Hl"). wp_ret. iApply ("HΦ" $! _ _ (IState (KState fr es) true) with "[]").
        { iPureIntro. exists (KState fr es). split; [|done]. split; [|done]. by rewrite Hl -list_fmap_compose. }
        rewrite /IR. cbn [is_k is_init ks_free ks_es]. iFrame "Hpool". iSplit; [done|]. iSplit; [done|]. iFrame "HB Hr".
      + (* count *)
        wp_ret. iApply ("HΦ" $! _ _ (IState (KState fr es) true) with "[]"). { iPureIntro. exists (KState fr es). by split. }
        rewrite /IR. cbn [is_k is_init ks_free ks_es]. iFrame "Hpool". iSplit; [done|]. iSplit; [done|]. iFrame "HB Hr".
    - (* memory_usage *)
      rewrite /istep. wp_ret. iApply ("HΦ" $! _ _ (IState (KState fr es) true) with "[]").
      { iPureIntro. split; [|done]. f_equal. rewrite /inp_memory_usage /wrap. cbn [inp_count is_k ks_es]. rewrite Z.mod_small; lia. }
      rewrite /IR. cbn [is_k is_init ks_free ks_es]. iFrame "Hpool". iSplit; [done|]. iSplit; [done|]. iFrame "HB Hr".
  Qed.
End istep.

Definition iboth (s : istate) (o : iop) (a : kout) (s' : istate) : Prop := ipre s o ∧ ipost s o a s'.
Definition inp_end_both (om : objmap) (cs : option inptrie) (tr : list (iop * kout)) : Prop :=
  ∃ s', correct iboth (istate0 om) tr s' ∧
    if is_init s' then ∃ t, cs = Some t ∧ inp_count t = Z.of_nat (length (ks_es (is_k s'))) else cs = None.

Lemma inp_history_both om tb m fuel c :
  inp_start om tb m → (14 ≤ fuel)%nat → allowed ipre ipost (istate0 om) c →
  succeeds (run (istep fuel tb) None c m) (λ r m',
    inp_end_both om r.1 r.2 ∧ unchanged_outside (node_cells 64 tb ++ objs_cells om) m m').
Proof.
  intros (Hok & Hbuck) Hf Ha. apply allowed_both in Ha.
  pose proof (client_adequacy False (run (istep fuel tb) None c) 8 om (node_cells 64 tb) m
    (λ r m', inp_end_both om r.1 r.2) Hok) as Had.
  apply Had.
  { intros a Hin. destruct (Hbuck a Hin) as (c0 & ? & _). eauto. }
  intros HG _ _. iIntros "Hw Hpool".
  iApply (wp_run _ ipre iboth (IR om tb) with "[Hw Hpool]").
  - intros cs s o Φ Hpre. iIntros "HR HΦ". iApply (wp_istep with "HR"); [eauto|done|done|].
    iIntros (cs' a s' Hp) "HR". iApply ("HΦ" with "[] HR"). done.
  - exact Ha.
  - rewrite /IR. cbn [is_k is_init istate0 ks_es ks_free]. iFrame "Hpool". iSplit.
    { iPureIntro. split; [constructor|]. split; [by intros e He%elem_of_nil|]. split; [constructor|]. split; [constructor|done]. }
    iSplit; [done|]. iApply (big_sepL_impl with "Hw"). iIntros "!>" (i a Hi) "(%c0 & %Hc0 & Hw)". iExists c0. iFrame. iPureIntro.
    destruct (Hbuck a) as (c1 & ? & ?); [by eapply elem_of_list_lookup_2|]. by simplify_eq.
  - iIntros (cs tr s' Hcor) "(_ & %Hes & HR)". iIntros (m') "_". iExists s'. iSplit; [done|].
    destruct (is_init s'); [iDestruct "HR" as (->) "_"|iDestruct "HR" as ([-> _]) "_"]; [|done]. iPureIntro. eexists. done.
Qed.

Lemma inp_history om tb m fuel c :
  inp_start om tb m → (14 ≤ fuel)%nat → allowed ipre ipost (istate0 om) c →
  succeeds (run (istep fuel tb) None c m) (λ r m',
    inp_end om r.1 r.2 ∧ unchanged_outside (node_cells 64 tb ++ objs_cells om) m m').
Proof.
  intros Hs Hf Ha. eapply succeeds_mono; [by apply inp_history_both|]. simpl. intros r m' [(s' & Hc & H1) H2]. split; [|done].
  exists s'. split; [|done]. by eapply correct_mono; [|exact Hc]; intros ? ? ? ? [_ ?].
Qed.
