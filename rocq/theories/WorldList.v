(** * Lists as part of a world. *)
From Verif Require Export WorldProof ListHist.
Global Open Scope Z_scope.

(** ** Freeing client blocks leaves the other blocks alone *)
Lemma free_all_union ds (l X : gmap Z region) : (∀ d, d ∈ ds → X !! d = None) → free_all ds (l ∪ X) = free_all ds l ∪ X.
Proof.
  rewrite /free_all. induction ds as [|d ds IH]; intros H; [done|]. simpl. rewrite IH; [|set_solver].
  rewrite delete_union (delete_notin X) //. apply H. by left.
Qed.
Lemma free_all_subseteq ds (l : gmap Z region) : free_all ds l ⊆ l.
Proof. rewrite /free_all. induction ds as [|d ds IH]; simpl; [done|]. trans (foldr delete l ds); [apply delete_subseteq|done]. Qed.
Lemma freeable_mono (l X : gmap Z region) om p d : freeable l om p d → freeable (l ∪ X) om p d.
Proof. intros (n & H1 & H2 & H3). exists n. split; [done|]. split; [done|]. by apply lookup_union_Some_l. Qed.
Lemma freeable_notin (l X : gmap Z region) om p d : l ##ₘ X → freeable l om p d → X !! d = None.
Proof. intros Hd (n & _ & _ & H3). by eapply map_disjoint_Some_l. Qed.

(** ** Pure facts *)
Lemma list_elems_elem (m : gmap Z (option (list (Z * Z)))) x :
  x ∈ (map_to_list m ≫= λ lx, default [] lx.2) ↔ ∃ l xs, m !! l = Some (Some xs) ∧ x ∈ xs.
Proof.
  rewrite elem_of_list_bind. split.
  - intros ([l [xs|]] & Hx & Hl%elem_of_map_to_list); simpl in Hx; [eauto|by apply elem_of_nil in Hx].
  - intros (l & xs & Hl & Hx). exists (l, Some xs). by rewrite elem_of_map_to_list.
Qed.
Lemma list_elems_fst (m : gmap Z (option (list (Z * Z)))) p :
  p ∈ (map_to_list m ≫= λ lx, default [] lx.2).*1 ↔ ∃ l xs, m !! l = Some (Some xs) ∧ p ∈ xs.*1.
Proof.
  rewrite elem_of_list_fmap. split.
  - intros (x & -> & Hx). apply list_elems_elem in Hx as (l & xs & Hl & Hx). exists l, xs. split; [done|]. apply elem_of_list_fmap. eauto.
  - intros (l & xs & Hl & Hx). apply elem_of_list_fmap in Hx as (x & -> & Hx). exists x. split; [done|]. apply list_elems_elem. eauto.
Qed.

Lemma list_laws fuel ls t : kind_laws (list_kind fuel ls t).
Proof.
  constructor; simpl; try done.
  - lia.
  - intros s o. destruct o; try apply submseteq_nil_l. destruct (ls_lists s !! l) as [[xs|]|] eqn:Hl; [|apply submseteq_nil_l..].
    apply elem_of_map_to_list in Hl. apply elem_of_list_split in Hl as (l1 & l2 & ->).
    rewrite bind_app bind_cons. simpl. apply submseteq_inserts_l, submseteq_inserts_r. done.
  - intros s o. destruct o; auto.
  - intros om K f l X s o HX. destruct o; simpl; try done. intros (xs & H1 & HF). exists xs. split; [done|].
    eapply Forall_impl; [exact HF|]. intros x. apply freeable_mono.
  - intros om K f l X s o a s1 HX Hpre Hpost.
    assert ((∃ l, o = LForeachFree l) ∨ ∀ l, o ≠ LForeachFree l) as [[l0 ->]|Hno] by (destruct o; eauto).
    + destruct Hpost as (xs & Hxs & -> & ->). destruct Hpre as (xs' & Hxs' & HF). simpl in *.
      assert (xs' = xs) as -> by (unfold has_list in *; simpl in *; congruence).
      rewrite Forall_forall in HF. exists (free_all xs.*2 l). rewrite free_all_union.
      2: { intros d (x & -> & Hx)%elem_of_list_fmap. eapply freeable_notin; [done|]. by apply HF. }
      split; [done|]. split; [by eapply map_disjoint_weaken_l; [|apply free_all_subseteq]|].
      exists xs. done.
    + exists l. destruct s as [fr lists lv]. unfold has_list, set_list, give, take in *. simpl in *.
      destruct o; simpl in *; [..|by destruct (Hno l0)];
        try (destruct Hpost as (-> & ox & H1 & ->); simpl; split; [done|]; split; [done|]; split; [done|]; by exists ox);
        try (destruct Hpost as (xs & H1 & -> & ->); simpl; split; [done|]; split; [done|]; by exists xs);
        try (destruct Hpost as (xs & d & ys & H1 & -> & ->); simpl; split; [done|]; split; [done|]; by exists xs, d, ys);
        try (destruct Hpost as (xs & ys & H1 & H2 & -> & ->); simpl; split; [done|]; split; [done|]; by exists xs, ys).
      destruct Hpost as (xs & ys & calls & H1 & -> & -> & H2). simpl; split; [done|]; split; [done|]; by exists xs, ys, calls.
  - intros om K s o a s1 p Hpre Hpost. rewrite !list_elems_fst. destruct s as [fr lists lv]. unfold has_list, set_list, give, take in *. simpl in *.
    assert (Hins : ∀ l (ox : option (list (Z * Z))) (m : gmap Z (option (list (Z * Z)))) l' xs, <[l := ox]> m !! l' = Some (Some xs) →
      ox = Some xs ∨ m !! l' = Some (Some xs)).
    { intros l ox m l' xs. rewrite lookup_insert_Some. naive_solver. }
    destruct o; simpl in *.
    + destruct Hpost as (-> & ox & H1 & ->). simpl. intros [Hp|(l' & xs & Hl & Hp)].
      * apply elem_of_union in Hp as [Hp|Hp%elem_of_list_to_set]; [by left|]. right. destruct ox as [xs|]; [|by apply elem_of_nil in Hp]. eauto.
      * apply Hins in Hl as [[= <-]|Hl]; [by apply elem_of_nil in Hp|]. eauto.
    + destruct Hpost as (xs & H1 & -> & ->). simpl. intros [Hp|(l' & ys & Hl & Hp)]; [left; set_solver|].
      apply Hins in Hl as [[= <-]|Hl]; [|eauto]. csimpl in Hp. apply elem_of_cons in Hp as [->|Hp]; [left; by apply Hpre|eauto].
    + destruct Hpost as (xs & H1 & -> & ->). simpl. intros [Hp|(l' & ys & Hl & Hp)]; [left; set_solver|].
      apply Hins in Hl as [[= <-]|Hl]; [|eauto]. rewrite fmap_app in Hp. csimpl in Hp.
      apply elem_of_app in Hp as [Hp| ->%elem_of_list_singleton]; [eauto|left; by apply Hpre].
    + destruct Hpost as (xs & d & ys & H1 & -> & ->). simpl. intros [Hp|(l' & zs & Hl & Hp)].
      * apply elem_of_union in Hp as [Hp| ->%elem_of_singleton]; [by left|]. right. exists l, (xs ++ (p0, d) :: ys). split; [done|].
        rewrite fmap_app. csimpl. apply elem_of_app. right. by left.
      * apply Hins in Hl as [[= <-]|Hl]; [|eauto]. right. exists l, (xs ++ (p0, d) :: ys). split; [done|].
        rewrite fmap_app in Hp. rewrite fmap_app. csimpl. rewrite elem_of_app elem_of_cons. rewrite elem_of_app in Hp. tauto.
    + destruct Hpost as (xs & ys & H1 & H2 & -> & ->). simpl. intros [Hp|(l' & zs & Hl & Hp)]; [by left|].
      apply Hins in Hl as [?|Hl]; [done|]. apply Hins in Hl as [[= <-]|Hl]; [|eauto]. rewrite fmap_app in Hp.
      apply elem_of_app in Hp as [Hp|Hp]; eauto.
    + destruct Hpost as (xs & ys & calls & H1 & -> & -> & Hperm & _). simpl. intros [Hp|(l' & zs & Hl & Hp)]; [by left|].
      apply Hins in Hl as [[= <-]|Hl]; [|eauto]. rewrite Hperm in Hp. eauto.
    + by destruct Hpost as (xs & H1 & -> & ->).
    + by destruct Hpost as (xs & H1 & -> & ->).
    + by destruct Hpost as (xs & H1 & -> & ->).
    + by destruct Hpost as (xs & H1 & -> & ->).
    + by destruct Hpost as (xs & H1 & -> & ->).
    + by destruct Hpost as (xs & H1 & -> & ->).
    + by destruct Hpost as (xs & H1 & -> & ->).
    + destruct Hpost as (xs & H1 & -> & ->). simpl. intros [Hp|(l' & zs & Hl & Hp)]; [by left|].
      apply Hins in Hl as [?|Hl]; [done|]. eauto.
Qed.

(** ** The representation *)
Section core.
  Variable t : Z.
  Definition listC (l : Z) (ox : option (list (Z * Z))) : iProp :=
    match ox with
    | None => anyR l
    | Some xs => ∃ es, ⌜pd <$> es = xs ∧ Forall (λ e, wordcell (e_i e)) es⌝ ∗ lst l es
    end.
  Definition listcore (_ : unit) (s : lstate) (int : gmap Z region) : iProp :=
    ⌜int = ∅⌝ ∗ t ↦ Tape [] ∗ [∗ map] l ↦ ox ∈ ls_lists s, listC l ox.

  Lemma erests_pd om es : ([∗ list] e ∈ es, erest om e) ⊣⊢ ([∗ list] x ∈ pd <$> es, rest 4 om x.1) ∗ ⌜Forall (λ e, wordcell (e_i e)) es⌝.
  Proof.
    rewrite /erest big_sepL_sep big_sepL_fmap big_sepL_pure. f_equiv. f_equiv. rewrite Forall_lookup. done.
  Qed.

  Lemma elems_map (m : gmap Z (option (list (Z * Z)))) (Ψ : Z * Z → iProp) :
    ([∗ list] x ∈ (map_to_list m ≫= λ lx, default [] lx.2), Ψ x) ⊣⊢ [∗ map] ox ∈ m, [∗ list] x ∈ default [] ox, Ψ x.
  Proof. rewrite big_sepL_bind. by rewrite (big_opM_map_to_list (λ _ ox, [∗ list] x ∈ default [] ox, Ψ x)%I). Qed.

  Lemma LR_split om cs s :
    LR om t cs s ⊣⊢ pool 4 om (ls_free s) ∗
      ([∗ list] x ∈ (map_to_list (ls_lists s) ≫= λ lx, default [] lx.2), rest 4 om x.1) ∗
      listcore cs s ∅ ∗ hctl (ls_live s).
  Proof.
    rewrite /LR /listcore elems_map.
    assert (Hl : ([∗ map] l ↦ ox ∈ ls_lists s, listR om l ox) ⊣⊢
      ([∗ map] l ↦ ox ∈ ls_lists s, [∗ list] x ∈ default [] ox, rest 4 om x.1) ∗ [∗ map] l ↦ ox ∈ ls_lists s, listC l ox).
    { rewrite -big_sepM_sep. apply big_sepM_proper. intros l [xs|] _; simpl; [|by rewrite left_id].
      iSplit.
      - iIntros "(%es & <- & Hl & He)". rewrite erests_pd. iDestruct "He" as "[$ %HF]". iExists es. by iFrame.
      - iIntros "(He & %es & [<- %HF] & Hl)". iExists es. iFrame "Hl". iSplit; [done|]. rewrite erests_pd. by iFrame. }
    rewrite Hl. iSplit.
    - iIntros "($ & [$ $] & $ & $)". done.
    - iIntros "($ & $ & (_ & $ & $) & $)".
  Qed.

  Lemma dseg_fnodes es pv nx : Forall (λ e, wordcell (e_i e)) es → dseg es pv nx ⊢ [∗ list] x ∈ pd <$> es, fnode 4 x.1.
  Proof.
    intros HF. revert pv. induction HF as [|e es He _ IH]; intros pv; csimpl; [auto|].
    iIntros "[Hn Hd]". iDestruct (IH with "Hd") as "$". iApply fnode4. by iApply (nodeP_freenode with "Hn").
  Qed.
End core.

Definition list_ok fuel ls t : kind_ok fuel (list_kind fuel ls t).
Proof.
  refine (KindOk fuel (list_kind fuel ls t) (listcore t) _ _ _ _ _ _ _); simpl.
  - done.
  - iIntros (cs s int) "(_ & _ & H)". rewrite elems_map.
    iApply (big_sepM_impl with "H"). iIntros "!>" (l [xs|] _); simpl; [|auto]. iIntros "(%es & [<- %HF] & H)". rewrite /lst. iDestruct "H" as "[_ H]".
    by iApply dseg_fnodes.
  - intros m [Ht Hls]. iIntros "H". csimpl. iDestruct "H" as "[(%c & %Hc & Ht) H]". rewrite Ht in Hc. injection Hc as <-.
    iSplit; [done|]. iFrame "Ht".
    iAssert ⌜NoDup ls⌝%I as %Hnd.
    { iDestruct (cells_NoDup ls with "[H]") as %?; [|done]. iApply (big_sepL_impl with "H"). iIntros "!>" (???) "(%c&_&H)". by iExists c. }
    rewrite big_opM_map_to_list map_to_list_to_map; [|rewrite -list_fmap_compose; by rewrite list_fmap_id].
    rewrite big_sepL_fmap. iApply (big_sepL_impl with "H"). iIntros "!>" (i l Hl) "(%c & %Hc & H)". simpl. iExists c. iFrame.
    destruct (Hls l) as (c1 & Hc1 & ?); [by eapply elem_of_list_lookup_2|]. by simplify_eq.
  - intros m [Ht Hls] a [->|Ha]%elem_of_cons; [by eexists|]. destruct (Hls a Ha) as (c & Hc & _). by eexists.
  - apply elem_of_nil_inv. intros x ([l ox] & Hx & Hl%elem_of_map_to_list)%elem_of_list_bind.
    apply elem_of_list_to_map_2, elem_of_list_fmap in Hl as (l' & [= -> ->] & _). by apply elem_of_nil in Hx.
  - iIntros (cs s int) "(-> & _)". done.
  - iIntros (G om K int cs s o Φ Henv HK Hom Hf Hpre Hd) "Hp Hr Hcore Hc HΦ".
    iAssert ⌜int = ∅⌝%I as %->; [by iDestruct "Hcore" as "[-> _]"|]. rewrite left_id_L.
    iApply (wp_lstep om t Hom fuel K cs s o with "[Hp Hr Hcore Hc]"); [lia|done|done| |].
    + rewrite LR_split. iFrame.
    + iIntros (cs' a s' Hpost) "HR". rewrite LR_split. iDestruct "HR" as "(Hp & _ & Hcore & Hc)".
      iApply ("HΦ" $! cs' a s' ∅ with "[//] [%] Hp Hcore [Hc]"); [apply map_disjoint_empty_l|by rewrite left_id_L].
Qed.
