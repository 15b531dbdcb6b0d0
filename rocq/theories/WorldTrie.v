(** * Tries as part of a world. *)
From Verif Require Export WorldList.
From Verif Require Import TrieHist InpHist.
Global Open Scope Z_scope.
Local Arguments node_cells : simpl never.
Local Arguments wcells : simpl never.

Notation tent_elems es := ((λ e, (te_p e, te_d e)) <$> es).

Lemma tent_elems_fst es : (tent_elems es).*1 = te_p <$> es.
Proof. by rewrite -list_fmap_compose. Qed.

Lemma kpost_nodes s o a s1 p : kpre s o → kpost s o a s1 → p ∈ ks_free s1 ∨ p ∈ te_p <$> ks_es s1 →
  p ∈ ks_free s ∨ p ∈ te_p <$> ks_es s.
Proof.
  destruct s as [fr es]. intros Hpre Hpost. destruct o; simpl in *.
  - destruct Hpost as [-> ->]. simpl. rewrite fmap_app elem_of_app elem_of_list_singleton /=. destruct Hpre as [Hp _].
    intros [H|[H| ->]]; [left; set_solver|by right|by left].
  - destruct Hpost as [(es1 & e & es2 & -> & H1 & H2 & -> & ->)|(H1 & -> & ->)]; simpl; [|done].
    rewrite !fmap_app fmap_cons !elem_of_app elem_of_cons elem_of_union elem_of_singleton. tauto.
  - destruct Hpost as (es1 & d & k & es2 & -> & -> & ->). simpl.
    rewrite !fmap_app fmap_cons !elem_of_app elem_of_cons elem_of_union elem_of_singleton. simpl. tauto.
  - by destruct Hpost as [-> ->].
  - by destruct Hpost as [-> ->].
  - by destruct Hpost as [-> ->].
Qed.

Lemma kpost_with s o a s1 : kpost s o a s1 → kpost (KState (ks_free s) (ks_es s)) o a (KState (ks_free s1) (ks_es s1)).
Proof. by destruct s, s1. Qed.

Lemma trie_laws fuel tb : kind_laws (trie_kind fuel tb).
Proof.
  constructor; simpl; try done.
  - lia.
  - intros s o. apply submseteq_nil_l.
  - intros s o. by left.
  - intros om K f l X s o a s1 HX Hpre Hpost. exists l.
    destruct s as [[fr es] cfg lv]. destruct o; simpl in *.
    + destruct Hpost as [-> ->]. done.
    + destruct Hpost as ([fr' es'] & Hk & ->). simpl. split; [done|]. split; [done|]. by exists (KState fr' es').
    + destruct Hpost as [-> ->]. done.
    + destruct Hpost as (bs & bl & p & -> & -> & Hp & ->). simpl. split; [done|]. split; [done|]. by exists bs, bl, p.
    + destruct Hpost as [-> ->]. done.
    + destruct Hpost as (bs & bl & -> & -> & ->). simpl. split; [done|]. split; [done|]. by exists bs, bl.
    + destruct Hpost as (bs & bl & -> & -> & ->). simpl. split; [done|]. split; [done|]. by exists bs, bl.
    + destruct Hpost as [-> ->]. done.
  - intros om K s o a s1 p Hpre Hpost. rewrite !tent_elems_fst. destruct s as [[fr es] cfg lv]. destruct o; simpl in *.
    + by destruct Hpost as [-> ->].
    + destruct Hpost as (k' & Hk & ->). simpl. destruct Hpre as [_ Hpre]. intros H. by apply (kpost_nodes _ _ _ _ _ Hpre Hk).
    + by destruct Hpost as [-> ->].
    + by destruct Hpost as (bs & bl & p' & -> & -> & Hp & ->).
    + by destruct Hpost as [-> ->].
    + by destruct Hpost as (bs & bl & -> & -> & ->).
    + by destruct Hpost as (bs & bl & -> & -> & ->).
    + destruct Hpost as [-> ->]. simpl. rewrite elem_of_union elem_of_list_to_set elem_of_nil. tauto.
Qed.

Lemma inp_laws fuel tb : kind_laws (inp_kind fuel tb).
Proof.
  constructor; simpl; try done.
  - lia.
  - intros s o. apply submseteq_nil_l.
  - intros s o. by left.
  - intros om K f l X [s lv] o a [s1 lv1] HX Hpre [Hpost Hl]. exists l. simpl in *. subst lv1.
    destruct s as [[fr es] ini]. split; [done|]. split; [done|]. split; [|done]. destruct o; simpl in *.
    + destruct Hpost as [-> ->]. done.
    + destruct Hpost as ([fr' es'] & Hk & ->). simpl. by exists (KState fr' es').
    + destruct Hpost as [-> ->]. done.
  - intros om K [s lv] o a [s1 lv1] p Hpre [Hpost _]. rewrite !tent_elems_fst. destruct s as [[fr es] ini]. destruct o; simpl in *.
    + destruct Hpost as [-> ->]. simpl. rewrite elem_of_union elem_of_list_to_set elem_of_nil. tauto.
    + destruct Hpost as (k' & Hk & ->). simpl. destruct Hpre as [_ Hpre]. intros H. by apply (kpost_nodes _ _ _ _ _ Hpre Hk).
    + by destruct Hpost as [-> ->].
Qed.

(** ** Elements *)
Definition own_ok (es : list tent) : Prop := NoDup (te_p <$> es) ∧ Forall (λ e, 0 ≤ te_k e < 2 ^ 32) es.
Definition own_om (es : list tent) : objmap := list_to_map ((λ e, (te_p e, (te_p e, 0%nat))) <$> es).

Lemma es_ok_own om fr es : es_ok om fr es → own_ok es.
Proof. intros (H1 & _ & H2 & _). done. Qed.
Lemma own_es_ok es : own_ok es → es_ok (own_om es) ∅ es.
Proof.
  intros [H1 H2]. split; [done|]. split; [set_solver|]. split; [done|]. split; [|set_solver].
  apply Forall_forall. intros e He. rewrite /own_om dom_list_to_map_L. apply elem_of_list_to_set.
  rewrite -list_fmap_compose. apply elem_of_list_fmap. by exists e.
Qed.

Lemma es_ok_join nw om fr es : (0 < nw)%nat → own_ok es →
  pool nw om fr -∗ ([∗ list] e ∈ es, rest nw om (te_p e)) -∗ ([∗ list] e ∈ es, fnode nw (te_p e)) -∗ ⌜es_ok om fr es⌝.
Proof.
  iIntros (Hnw [H1 H2]) "Hp Hr Hn". rewrite /es_ok. iSplit; [done|].
  iSplit; [|iSplit; [done|iSplit]].
  - iIntros (e He Hf). apply elem_of_list_lookup in He as [i Hi]. iDestruct (big_sepL_lookup with "Hn") as "Hn"; first done.
    iDestruct (pool_take with "Hp") as "(Hn' & _)"; first done. by iDestruct (fnode_excl with "Hn Hn'") as %?.
  - rewrite Forall_forall. iIntros (e [i Hi]%elem_of_list_lookup). iDestruct (big_sepL_lookup with "Hr") as "Hr"; first done.
    iDestruct (rest_om with "Hr") as %?. iPureIntro. by apply elem_of_dom.
  - iAssert ⌜∀ p, p ∈ fr → p ∈ dom om⌝%I as %?; [|done]. iIntros (p Hp). iDestruct (pool_take with "Hp") as "(_ & Hr' & _)"; first done. iDestruct (rest_om with "Hr'") as %?.
    iPureIntro. by apply elem_of_dom.
Qed.

Section trie.
  Variable tb : Z.

  Definition trieC (cs : option (trie * allocator)) (s : xstate) (int : gmap Z region) : iProp :=
    let es := ks_es (xs_k s) in
    match xs_cfg s with
    | None => ⌜cs = None ∧ es = [] ∧ int = ∅⌝ ∗ [∗ list] a ∈ wcells tb 32, anyword a
    | Some (bs, bl) => ∃ a al ibl freed,
        ⌜cs = Some (Trie tb (Z.of_nat (length es)) (Z.of_nat (length ibl)), a) ∧ geo bs al ∧ 64 ≤ bs ∧
         NoDup ibl ∧ list_to_set ibl ## bl⌝ ∗
        allocR bs al a (list_to_set ibl ∪ bl) freed int ∗ bucketsR tb bs es ibl ∗ [∗ set] p ∈ bl, blockR bs p
    end.
  Definition triecore cs s int : iProp := ⌜own_ok (ks_es (xs_k s))⌝ ∗ trieC cs s int.

  Lemma trieC_nodes cs s int : own_ok (ks_es (xs_k s)) → trieC cs s int ⊢ [∗ list] e ∈ ks_es (xs_k s), fnode 4 (te_p e).
  Proof.
    iIntros (Hes) "H". rewrite /trieC. destruct (xs_cfg s) as [[bs bl]|].
    - iDestruct "H" as (a al ibl freed (_ & _ & Hbs & _)) "(_ & HB & _)".
      iDestruct (buckets_open (own_om (ks_es (xs_k s))) with "HB") as "(_ & Hn & _)"; [done|by apply own_es_ok|].
      iApply (big_sepL_impl with "Hn"). iIntros "!>" (i e _) "H". by rewrite fnode4.
    - by iDestruct "H" as "[(_ & -> & _) _]".
  Qed.

  Lemma XR_join om cs s int : int ##ₘ xs_live s →
    pool 4 om (ks_free (xs_k s)) -∗ ([∗ list] x ∈ tent_elems (ks_es (xs_k s)), rest 4 om x.1) -∗
    triecore cs s int -∗ hctl (int ∪ xs_live s) -∗ XR om tb cs s.
  Proof.
    iIntros (Hd) "Hp Hr [%Hes H] Hc". rewrite big_sepL_fmap /=.
    iAssert ⌜es_ok om (ks_free (xs_k s)) (ks_es (xs_k s))⌝%I as %Hok.
    { iDestruct (trieC_nodes with "H") as "Hn"; [done|]. iApply (es_ok_join 4 with "Hp Hr Hn"); [lia|done]. }
    rewrite /XR. iFrame "Hp". iSplit; [done|]. rewrite /trieC. destruct (xs_cfg s) as [[bs bl]|].
    - iDestruct "H" as (a al ibl freed Hpure) "(Ha & HB & Hbl)". iExists a, al, ibl. iSplit; [done|]. iFrame "HB Hbl Hr".
      rewrite /allocH. iExists freed, int. by iFrame.
    - iDestruct "H" as "[(-> & -> & ->) Hw]". rewrite left_id_L. by iFrame.
  Qed.
  Lemma XR_split om cs s : XR om tb cs s -∗
    ∃ int, ⌜int ##ₘ xs_live s⌝ ∗ pool 4 om (ks_free (xs_k s)) ∗ triecore cs s int ∗ hctl (int ∪ xs_live s).
  Proof.
    iIntros "($ & %Hok & H)". rewrite /triecore /trieC. destruct (xs_cfg s) as [[bs bl]|].
    - iDestruct "H" as (a al ibl Hpure) "(Ha & HB & Hbl & _)". rewrite /allocH. iDestruct "Ha" as (freed own Hd) "[Ha Hc]".
      iExists own. iSplit; [done|]. iSplitR "Hc"; [|iExact "Hc"]. iSplit; [iPureIntro; by eapply es_ok_own|]. iExists a, al, ibl, freed. iSplit; [done|]. iSplitL "Ha"; [iExact "Ha"|]. iSplitL "HB"; [iExact "HB"|iExact "Hbl"].
    - iDestruct "H" as "([-> %He] & Hc & Hw)". iExists ∅. rewrite left_id_L. iFrame. iPureIntro.
      split; [apply map_disjoint_empty_l|]. split; [by eapply es_ok_own|done].
  Qed.
End trie.

Definition trie_ok fuel tb : kind_ok fuel (trie_kind fuel tb).
Proof.
  refine (KindOk fuel (trie_kind fuel tb) (triecore tb) _ _ _ _ _ _ _).
  - intros cs [[fr es] cfg lv] int f l. done.
  - simpl. iIntros (cs s int) "[%Hes H]". rewrite big_sepL_fmap. by iApply trieC_nodes.
  - intros m Hs. change (([∗ list] a ∈ node_cells 32 tb, ∃ c, ⌜m !! a = Some c⌝ ∗ a ↦ c) ⊢ triecore tb None (xstate0 ∅ ∅) ∅). iIntros "H". iSplit; [iPureIntro; split; [apply NoDup_nil_2|constructor]|]. iSplit; [done|].
    iApply (big_sepL_impl with "H"). iIntros "!>" (i a Ha) "(%c & %Hc & Hw)". iExists c. iFrame.
    destruct (Hs a) as (c' & Hc' & ?); [by eapply elem_of_list_lookup_2|]. by simplify_eq.
  - intros m Hs a Ha. destruct (Hs a Ha) as (c & Hc & _). by eexists.
  - done.
  - simpl. iIntros (cs s int) "(_ & H)". iIntros (Hi). rewrite /trieC Hi. by iDestruct "H" as "[(_ & _ & ->) _]".
  - simpl. iIntros (G om K int cs s o Φ Henv HK Hom Hf Hpre Hd) "Hp Hr Hcore Hc HΦ".
    iApply (wp_xstep Henv om tb Hom fuel cs s o with "[Hp Hr Hcore Hc]"); [lia|done| |].
    + iApply (XR_join with "Hp Hr Hcore Hc"). done.
    + iIntros (cs' a s' Hpost) "HR". iDestruct (XR_split with "HR") as "(%int' & %Hd' & Hp & Hcore & Hc)".
      iApply ("HΦ" $! cs' a s' int' with "[//] [//] Hp Hcore Hc").
Qed.

Section inp.
  Variable tb : Z.

  Definition inpC (cs : option inptrie) (s : istate) : iProp :=
    let es := ks_es (is_k s) in
    (if is_init s then ⌜cs = Some (InpTrie tb (Z.of_nat (length es)))⌝ ∗ bucketsI tb es
     else ⌜cs = None ∧ es = []⌝ ∗ [∗ list] a ∈ wcells tb 64, anyword a)%I.
  Definition inpcore (cs : option inptrie) (s : istate * gmap Z region) (int : gmap Z region) : iProp :=
    ⌜int = ∅ ∧ own_ok (ks_es (is_k s.1))⌝ ∗ inpC cs s.1.

  Lemma inpC_nodes cs s : own_ok (ks_es (is_k s)) → inpC cs s ⊢ [∗ list] e ∈ ks_es (is_k s), fnode 8 (te_p e).
  Proof.
    iIntros (Hes) "H". rewrite /inpC. destruct (is_init s).
    - iDestruct "H" as "[-> HB]".
      iDestruct (bucketsI_open (own_om (ks_es (is_k s))) with "HB") as "(_ & $)". by apply own_es_ok.
    - by iDestruct "H" as "[(_ & ->) _]".
  Qed.
  Lemma IR_join om cs s : own_ok (ks_es (is_k s)) →
    pool 8 om (ks_free (is_k s)) -∗ ([∗ list] x ∈ tent_elems (ks_es (is_k s)), rest 8 om x.1) -∗
    inpC cs s -∗ IR om tb cs s.
  Proof.
    iIntros (Hes) "Hp Hr H". rewrite big_sepL_fmap /=.
    iAssert ⌜es_ok om (ks_free (is_k s)) (ks_es (is_k s))⌝%I as %Hok.
    { iDestruct (inpC_nodes with "H") as "Hn"; [done|]. iApply (es_ok_join 8 with "Hp Hr Hn"); [lia|done]. }
    rewrite /IR. iFrame "Hp". iSplit; [done|]. rewrite /inpC. destruct (is_init s).
    - iDestruct "H" as "[-> HB]". by iFrame.
    - iDestruct "H" as "[(-> & ->) Hw]". by iFrame.
  Qed.
  Lemma IR_split om cs s : IR om tb cs s -∗ pool 8 om (ks_free (is_k s)) ∗ ⌜own_ok (ks_es (is_k s))⌝ ∗ inpC cs s.
  Proof.
    iIntros "($ & %Hok & H)". iSplit; [iPureIntro; by eapply es_ok_own|]. rewrite /inpC. destruct (is_init s).
    - iDestruct "H" as "(-> & HB & _)". by iFrame.
    - iDestruct "H" as "([-> %He] & Hw)". by iFrame.
  Qed.
End inp.

Definition inp_ok fuel tb : kind_ok fuel (inp_kind fuel tb).
Proof.
  refine (KindOk fuel (inp_kind fuel tb) (inpcore tb) _ _ _ _ _ _ _).
  - intros cs [[[fr es] ini] lv] int f l. done.
  - simpl. iIntros (cs s int) "[[_ %Hes] H]". rewrite big_sepL_fmap. by iApply inpC_nodes.
  - intros m Hs. change (([∗ list] a ∈ node_cells 64 tb, ∃ c, ⌜m !! a = Some c⌝ ∗ a ↦ c) ⊢ inpcore tb None (istate0 ∅, ∅) ∅). iIntros "H". iSplit; [iPureIntro; split; [done|]; split; [apply NoDup_nil_2|constructor]|]. iSplit; [done|].
    iApply (big_sepL_impl with "H"). iIntros "!>" (i a Ha) "(%c & %Hc & Hw)". iExists c. iFrame.
    destruct (Hs a) as (c' & Hc' & ?); [by eapply elem_of_list_lookup_2|]. by simplify_eq.
  - intros m Hs a Ha. destruct (Hs a Ha) as (c & Hc & _). by eexists.
  - done.
  - simpl. iIntros (cs s int) "([-> _] & _)". done.
  - simpl. iIntros (G om K int cs s o Φ Henv HK Hom Hf Hpre Hd) "Hp Hr [[-> %Hes] Hcore] Hc HΦ". rewrite left_id_L.
    iApply (wp_istep om tb Hom fuel cs s.1 o with "[Hp Hr Hcore]"); [lia|done| |].
    + by iApply (IR_join with "Hp Hr Hcore").
    + iIntros (cs' a s' Hpost) "HR". iDestruct (IR_split with "HR") as "(Hp & %Hes' & Hcore)".
      iApply ("HΦ" $! cs' a (s', s.2) ∅ with "[//] [%] Hp [Hcore] [Hc]"); [apply map_disjoint_empty_l| |].
      * iFrame. done.
      * by rewrite left_id_L.
Qed.
