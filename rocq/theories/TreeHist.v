(** * Proofs of the tree history theorem and of its consequences. *)
From Verif Require Export TreeProof ClientSize.
Global Open Scope Z_scope.

Definition telems (s : trstate) : list (Z * Z) := match ts_tree s with Some (_, xs) => xs | None => [] end.

Section tree_hist.
  Context `{!memG}.
  Variable om : objmap.
  Variable t : Z.
  Variable D : Z → Prop.
  Variable K : mem.

  Variable Q : Prop.

  (** The comparison of the tree can be called with all its elements, if [Q]. *)
  Definition dataok (f : Z → Z → M Z) (c : Z → Z → Z) (xs : list (Z * Z)) : Prop :=
    Q → (∀ a b, D a → D b → reads memG_frame f c a b) ∧ ∀ x, x ∈ xs.*2 → D x.
  Lemma dataok_treads f c xs d : Q → dataok f c xs → D d → treads f c d xs.
  Proof. intros HQ [H1 H2] Hd y Hy; [done|]. auto. Qed.
  Lemma dataok_elem f c xs p d : Q → dataok f c xs → (p, d) ∈ xs → treads f c d xs.
  Proof. intros HQ H1 Hd. apply dataok_treads; [done|done|]. apply H1; [done|]. apply elem_of_list_fmap. by exists (p, d). Qed.
  Lemma dataok_insert f c a b p d : dataok f c (a ++ b) → D d → dataok f c (a ++ (p, d) :: b).
  Proof. intros Hok Hd HQ. destruct (Hok HQ) as [H1 H2]. split; [done|]. intros x. rewrite fmap_app in H2. rewrite fmap_app. set_solver. Qed.
  Lemma dataok_remove f c a b p d : dataok f c (a ++ (p, d) :: b) → dataok f c (a ++ b).
  Proof. intros Hok HQ. destruct (Hok HQ) as [H1 H2]. split; [done|]. intros x. rewrite fmap_app in H2. rewrite fmap_app. set_solver. Qed.

  Definition TreeR (cs : option treeS) (ox : option ((Z → Z → Z) * list (Z * Z))) : iProp :=
    match ox with
    | None => ⌜cs = None⌝
    | Some (c, xs) => ∃ T f, ⌜cs = Some (TreeS (root T) (TC t f) (Z.of_nat (length xs))) ∧ total_preorder c ∧ dataok f c xs ∧
        increasing c xs ∧ avl T ∧ inorder T = xs⌝ ∗ treeR T ∗ [∗ list] x ∈ xs, rest 4 om x.1
    end.
  Definition TRel (cs : option treeS) (s : trstate) : iProp :=
    pool 4 om (ts_free s) ∗ hctl (ts_live s) ∗ t ↦ Tape [] ∗ TreeR cs (ts_tree s).

  Lemma nodeT_fnode p d i nx pv : nodeT p d i nx pv -∗ fnode 4 p.
  Proof.
    iIntros "(%Hp & Hn & Hv & Hd & Hi)". rewrite fnode4 /freenode. iSplit; [done|].
    iSplitL "Hn"; [|iSplitL "Hv"; [|iSplitL "Hd"]]; iExists _; iFrame; iPureIntro; right; eauto.
  Qed.

  Lemma treeR_fnodes T : treeR T -∗ [∗ list] x ∈ inorder T, fnode 4 x.1.
  Proof.
    induction T as [|p d i l IHl r IHr]; iIntros "H"; simpl; [done|]. iEval (rewrite treeR_node) in "H".
    iDestruct "H" as "(Hn & Hl & Hr)". rewrite big_sepL_app /=. iSplitL "Hl"; [by iApply IHl|].
    iSplitL "Hn"; [by iApply (nodeT_fnode with "Hn")|by iApply IHr].
  Qed.

  Lemma fnodes_nodup (xs : list (Z * Z)) : ([∗ list] x ∈ xs, fnode 4 x.1) -∗ ⌜NoDup xs.*1⌝.
  Proof.
    iIntros "H". iInduction xs as [|x xs] "IH"; [iPureIntro; constructor|]. simpl. iDestruct "H" as "[Hx H]".
    iAssert ⌜x.1 ∉ xs.*1⌝%I as %Hn.
    { iIntros ((y & Hy & Hin)%elem_of_list_fmap). apply elem_of_list_lookup in Hin as [i Hi].
      iDestruct (big_sepL_lookup with "H") as "H"; first done. rewrite Hy.
      by iDestruct (fnode_excl 4 with "Hx H") as %?; [lia|]. }
    iDestruct ("IH" with "H") as %Hnd. iPureIntro. by constructor.
  Qed.

  Lemma treeR_size T : treeR T -∗ ([∗ list] x ∈ inorder T, rest 4 om x.1) -∗ ⌜(length (inorder T) ≤ size om)%nat ∧ NoDup (inorder T).*1⌝.
  Proof.
    iIntros "H Hr". rewrite treeR_fnodes. iDestruct (fnodes_nodup with "H") as %Hnd.
    iAssert ⌜∀ p, p ∈ (inorder T).*1 → p ∈ dom om⌝%I as %Hin.
    { iIntros (p (e & -> & He)%elem_of_list_fmap). apply elem_of_list_lookup in He as [i Hi].
      iDestruct (big_sepL_lookup with "Hr") as "Hr"; first done.
      iDestruct (rest_om with "Hr") as %Hs. by rewrite elem_of_dom. }
    iPureIntro. split; [|done]. rewrite -(fmap_length (fst : Z * Z → Z)) -size_dom.
    change (size (dom om)) with (length (elements (dom om))).
    apply submseteq_length, NoDup_submseteq; [done|]. intros p Hp. apply elem_of_elements. auto.
  Qed.

  Lemma nodes_give (xs : list (Z * Z)) ps : ([∗ list] x ∈ xs, fnode 4 x.1) -∗ ([∗ list] x ∈ xs, rest 4 om x.1) -∗ pool 4 om ps -∗
    pool 4 om (ps ∪ list_to_set xs.*1).
  Proof.
    iIntros "Hn Hr Hp". iInduction xs as [|x xs] "IH" forall (ps); csimpl.
    - by rewrite right_id_L.
    - iDestruct "Hn" as "[Hn Hns]". iDestruct "Hr" as "[Hr Hrs]". rewrite assoc_L. iApply ("IH" with "Hns Hrs").
      by iApply (pool_give 4 with "Hn Hr"); [lia|].
  Qed.

  Lemma few_calls_intro d T ys : avl T → (length ys ≤ depth T)%nat → (∀ y, y ∈ ys → y ∈ (inorder T).*2) →
    few_calls d (inorder T) (flatd d ys).
  Proof.
    intros HT Hl Hin. exists ys. split; [done|]. split; [done|]. eapply log_bound_mono; [exact Hl|reflexivity|]. by apply avl_log.
  Qed.

  Lemma increasing_unique c xs x y : total_preorder c → increasing c xs → x ∈ xs → y ∈ xs → c x.2 y.2 = 0 → x = y.
  Proof.
    intros Hc Hs Hx Hy H0. induction Hs as [|z xs Hs IH Hf]; [by apply elem_of_nil in Hx|].
    rewrite Forall_forall in Hf.
    apply elem_of_cons in Hx as [->|Hx]; apply elem_of_cons in Hy as [->|Hy]; [done| | |auto].
    - apply Hf in Hy. lia.
    - apply Hf in Hx. apply (cmp_eq c Hc) in H0. lia.
  Qed.

  Lemma increasing_remove c a (x : Z * Z) b : increasing c (a ++ x :: b) → increasing c (a ++ b).
  Proof.
    rewrite /increasing. induction a as [|y a IH]; simpl; inversion 1 as [|? ? Hs Hf]; subst; [done|].
    constructor; [auto|]. rewrite Forall_app Forall_cons in Hf. rewrite Forall_app. naive_solver.
  Qed.
  Lemma increasing_insert c a (x : Z * Z) b : increasing c (a ++ b) →
    Forall (λ y, c y.2 x.2 < 0) a → Forall (λ y, c x.2 y.2 < 0) b → increasing c (a ++ x :: b).
  Proof.
    rewrite /increasing. induction a as [|y a IH]; simpl; intros Hs Ha Hb; [by constructor|].
    inversion Hs as [|? ? Hs' Hf]; subst. inversion Ha as [|? ? Hy Ha']; subst. constructor; [auto|].
    rewrite Forall_app Forall_cons. rewrite Forall_app in Hf. naive_solver.
  Qed.
  Lemma suborder_directed c f k xs : increasing c xs → suborder c f k xs → directed f k xs.
  Proof.
    rewrite /increasing /directed /suborder. induction 1 as [|x xs Hs IH Hf]; intros Hsub; constructor.
    - apply IH. intros y z Hy Hz. apply Hsub; by right.
    - rewrite Forall_forall in Hf. apply Forall_forall. intros y Hy. apply Hsub; [by left|by right|auto].
  Qed.

  Hypothesis Hom : ∃ others m, client_ok 4 om others m.

  Lemma om_size4 : Z.of_nat (size om) < 2 ^ 59.
  Proof. destruct Hom as (others & m & Hok). pose proof (client_size_words _ _ _ _ Hok). lia. Qed.

  Lemma wp_tree_foreach_free fuel T live Φ :
    (size om + 4 ≤ fuel)%nat → Forall (λ x, freeable live om x.1 x.2) (inorder T) →
    treeR T -∗ ([∗ list] x ∈ inorder T, rest 4 om x.1) -∗ hctl live -∗ t ↦ Tape [] -∗
    (hctl (free_all (inorder T).*2 live) -∗ t ↦ Tape (inorder T).*2 -∗ Φ tt) -∗
    wp (tree_foreach_node fuel (root T) (visit_free t)) Φ.
  Proof.
    iIntros (Hf HF) "HT Hr Hc Ht HΦ". iDestruct (treeR_size with "HT Hr") as %[Hsz Hnd].
    pose proof (depth_length T).
    assert (∃ xs, inorder T = xs) as [xs Hxs] by eauto. rewrite Hxs in HF Hnd |- *.
    iApply (wp_foreach_node (λ _ _ _ _ _, emp)%I (λ dn : list (Z * Z), t ↦ Tape dn.*2 ∗ hctl (free_all dn.*2 live) ∗
      [∗ list] x ∈ drop (length dn) xs, rest 4 om x.1)%I _ xs T fuel [] [] with "[] HT [Ht Hc Hr]");
      [by rewrite Hxs /= app_nil_r|lia| | |].
    - iIntros "!>" (dn p d i nx pv more Heq) "(Ht & Hc & Hr) Hn". clear Hxs.
      subst xs. rewrite drop_app. iDestruct "Hr" as "[Hr Hrs]".
      apply Forall_app in HF as [HF0 HF1].
      inversion HF1 as [|?? (n & Hp & Hd0 & Hlive) HF2]; subst. simpl in *.
      iApply (wp_visit_free_gen 4 om t _ _ p d n with "[Hn] Hr Ht Hc"); [done| |done| | |].
      + destruct Hom as (oth & m & (Hn & _)). apply (Hn _ _ Hp).
      + assert (Hnin : d ∉ dn.*2).
        { intros ([q e] & He' & Hin)%elem_of_list_fmap.
          rewrite Forall_forall in HF0. destruct (HF0 _ Hin) as (n' & Hp' & _). simpl in He', Hp'. subst e.
          destruct Hom as (oth & m & Hok).
          pose proof (client_base_inj 4 _ _ _ _ _ _ _ _ ltac:(lia) Hok Hp Hp') as Heq. subst q.
          rewrite fmap_app in Hnd. apply NoDup_app in Hnd as (_ & Hnd & _).
          apply (Hnd p); [by apply (elem_of_list_fmap_1 fst _ (p, d))|]. csimpl. by left. }
        clear -Hlive Hnin. induction dn as [|e' dn IH]; [done|]. csimpl in *.
        rewrite lookup_delete_ne; [|set_solver]. apply IH. set_solver.
      + by iApply (nodeT_fnode with "Hn").
      + iIntros "Ht Hc". rewrite fmap_app app_length /=. iFrame "Ht".
        iSplitL "Hc".
        * rewrite /free_all ?fmap_app foldr_app /=.
          assert (foldr delete (delete d live) dn.*2 = delete d (foldr delete live dn.*2)) as ->.
          { clear. induction dn as [|e' dn IH]; [done|]. csimpl. rewrite IH. apply delete_commute. }
          done.
        * replace (dn ++ (p, d) :: more) with ((dn ++ [(p, d)]) ++ more) by by rewrite -app_assoc.
          rewrite drop_app_alt; [done|]. by rewrite app_length.
    - iFrame.
    - iIntros "(Ht & Hc & _) _". rewrite Hxs. iApply ("HΦ" with "Hc Ht").
  Qed.

  (** The longest path allowed by [log_bound] *)
  Definition longest (N : nat) : nat := Z.to_nat (Z.log2 ((Z.of_nat N + 1) ^ 85) / 59 + 1).
  Lemma longest_bound N : log_bound (longest N) N.
  Proof.
    unfold log_bound, longest. assert (0 < (Z.of_nat N + 1) ^ 85) as HN by (apply Z.pow_pos_nonneg; lia).
    generalize dependent ((Z.of_nat N + 1) ^ 85). intros x HN.
    destruct (Z.log2_spec _ HN) as [Hl _]. pose proof (Z.log2_nonneg x) as H0.
    pose proof (Z.div_pos (Z.log2 x) 59 H0 ltac:(lia)). pose proof (Z.mul_div_le (Z.log2 x) 59 ltac:(lia)).
    etrans; [|exact Hl]. apply Z.pow_le_mono_r; [lia|]. rewrite Z2Nat.id; lia.
  Qed.
  Lemma longest_max k N : log_bound k N → (k ≤ longest N)%nat.
  Proof.
    unfold log_bound, longest. assert (0 < (Z.of_nat N + 1) ^ 85) as HN by (apply Z.pow_pos_nonneg; lia).
    generalize dependent ((Z.of_nat N + 1) ^ 85). intros x HN Hk. destruct k as [|k]; [lia|].
    apply Z.log2_le_pow2 in Hk; [|done].
    assert (Z.of_nat k ≤ Z.log2 x / 59) by (apply Z.div_le_lower_bound; lia). lia.
  Qed.
  Lemma longest_height N : height_bound N (Z.of_nat (longest N)).
  Proof.
    intros T HT HN. pose proof (avl_depth _ HT).
    pose proof (longest_max _ _ (log_bound_mono _ _ _ _ (Nat.le_refl _) HN (avl_log _ HT))). lia.
  Qed.

  (** the caller of remove: either the element is removed or nothing changes *)
  Lemma wp_tree_remove_w fuel ff c T d Φ : total_preorder c → treads ff c d (inorder T) → increasing c (inorder T) → avl T →
    (length (inorder T) ≤ size om)%nat → (size om + 4 ≤ fuel)%nat →
    treeR T -∗ t ↦ Tape [] -∗
    (∀ z T' ys k, ⌜few_calls d (inorder T) ys ∧ avl T' ∧ trwork (length (inorder T)) (TrRemove d) k ∧
        match T with Leaf => True | Node _ e i _ _ => c d e = 0 → 2 ≤ i → (i - 2) * (i - 2) ≤ 8 * k end⌝ -∗ treeR T' -∗ t ↦ Tape ys -∗
      ((∃ a q b, ⌜inorder T = a ++ (q, z) :: b ∧ inorder T' = a ++ b ∧ c d z = 0⌝ ∗ fnode 4 q) ∨
       ⌜inorder T' = inorder T ∧ z = 0 ∧ Forall (λ x, c d x.2 ≠ 0) (inorder T)⌝) -∗
      Φ (z, TreeS (root T') (TC t ff) (Z.of_nat (length (inorder T'))), k)) -∗
    wp (tree_remove_w fuel (TreeS (root T) (TC t ff) (Z.of_nat (length (inorder T)))) d) Φ.
  Proof.
    intros Hc Hrd Hs Ha Hsz Hf. iIntros "HT Ht HΦ". pose proof om_size4. pose proof (depth_length T).
    rewrite /tree_remove_w. wp_bind. cbn [tr_cmp tr_root tr_count].
    iApply (wp_remove_node c Hc t ff fuel (length (inorder T)) (Z.of_nat (longest (length (inorder T)))) d null T with "HT Ht");
      [done|done|split; lia|apply longest_height|lia|lia|done|].
    iIntros (T' q ys k (Hys & Hin & HT' & Hk & Hlow)) "HT Ht Hcase".
    assert (Hwork : trwork (length (inorder T)) (TrRemove d) k).
    { exists (longest (length (inorder T))). split; [apply longest_bound|]. pose proof (longest_max _ _ (avl_log _ Ha)). split; [lia|nia]. }
    iDestruct "Hcase" as "[(%a & %e & %b & %i & %nx & %pv & %Hx & Hn)|%Hx]".
    - destruct Hx as (Hx1 & Hx2 & Hx3). iDestruct "Hn" as "(%Hq & Hnx & Hpv & Hd & Hi)". cbn [fst snd]. wp_if. wp_load. wp_ret.
      replace (sub64 (Z.of_nat (length (inorder T))) 1) with (Z.of_nat (length (inorder T'))).
      2:{ rewrite Hx1 Hx2 !app_length /=. rewrite Hx1 app_length /= in Hsz. rewrite /sub64 Z.mod_small; lia. }
      iApply ("HΦ" with "[] HT Ht [-]"); [iPureIntro; split; [by apply few_calls_intro|]; split; [done|]; split; done|].
      iLeft. iExists a, q, b. iSplit; [done|]. iApply (nodeT_fnode q e i nx pv). iFrame. done.
    - destruct Hx as (Hx1 & -> & Hx3). cbn [fst snd]. wp_if. wp_ret. rewrite -Hx1.
      iApply ("HΦ" with "[] HT Ht [-]"); [iPureIntro; rewrite Hx1; split; [by apply few_calls_intro|]; split; [done|]; split; done|].
      iRight. by rewrite Hx1.
  Qed.

  Lemma wp_trstep_w fuel cs s o Φ :
    (size om + 4 ≤ fuel)%nat → K ⊆ memG_frame → (compares o → Q) →
    trpre om K D s o →
    TRel cs s -∗ (∀ cs' a s' n, ⌜trpost s o a s' ∧ trwork (length (telems s)) o n⌝ -∗ TRel cs' s' -∗ Φ (cs', a, n)) -∗
    wp (trstep_w fuel t cs o) Φ.
  Proof.
    iIntros (Hf HK HQ Hpre) "(Hpool & Hc & Ht & HT) HΦ". pose proof om_size4 as Hom61.
    assert ((∃ f c, o = TrInit f c) ∨ ∀ f c, o ≠ TrInit f c) as [(f & c & ->)|Hno] by (destruct o; eauto).
    { destruct Hpre as [Htp Hrd].
      assert (dataok f c []) by (intros _; split; [|set_solver]; intros; eapply reads_mono; [|by apply Hrd]; done).
      simpl. wp_bind. wp_ret. wp_ret. iApply ("HΦ" with "[]"); [iPureIntro; done|].
      rewrite /TRel /tree_nodes /=. destruct (ts_tree s) as [[c' xs]|].
      - iDestruct "HT" as (T f' (_ & _ & _ & _ & _ & <-)) "[HT Hr]". rewrite treeR_fnodes.
        iFrame "Hc Ht". iDestruct (nodes_give with "HT Hr Hpool") as "$".
        iExists Leaf, f. iSplit; [iPureIntro|by rewrite treeR_leaf]. simpl. split; [done|]. split; [done|]. split; [done|]. split; [constructor|done].
      - rewrite right_id_L. iFrame. iExists Leaf, f. iSplit; [iPureIntro|by rewrite treeR_leaf].
        simpl. split; [done|]. split; [done|]. split; [done|]. split; [constructor|done]. }
    assert (Htree : ∃ c xs, ts_tree s = Some (c, xs)).
    { destruct o as [f' c'| | | | | | | | | | ]; simpl in Hpre; [by destruct (Hno f' c')|..];
        try (destruct Hpre as [[? ?] ?]; by eauto); try (destruct Hpre as [[[? ?] ?] _]; by eauto).
        - destruct Hpre as (? & ? & ? & ? & _); eauto.
        - destruct Hpre as (? & ? & ? & _); eauto.
        - destruct Hpre as (? & ? & ? & _); eauto. }
    destruct Htree as (c & xs & Hxs). rewrite /telems Hxs. iDestruct "HT" as (T ff (-> & Htp & Hdo & Hinc & Havl & <-)) "[HT Hr]".
    iDestruct (treeR_size with "HT Hr") as %[Hsz Hnd]. pose proof (depth_length T) as Hdl.
    assert (Hfits : fits fuel (size om + 1)) by (split; lia).
    destruct o as [f' c'|p d|d|p|d|f0 f k| | | |arg| ]; simpl in Hpre; rewrite /trstep_w /trstep.
    - by destruct (Hno f' c').
    - (* insert *)
      destruct Hpre as (_ & Hp & HDd). iDestruct (pool_take with "Hpool") as "(Hn & Hrp & Hpool)"; first done.
      rewrite fnode4 /freenode. iDestruct "Hn" as "(%Hp0 & (%n1 & %Hn1 & Hpn) & (%n2 & %Hn2 & Hpp) & (%n3 & %Hn3 & Hpd) & (%n4 & %Hn4 & Hpi))".
      rewrite /tree_insert_w. wp_bind. wp_store. wp_store. wp_store. wp_store. wp_bind. cbn [tr_cmp tr_root tr_count].
      iApply (wp_insert_node c Htp t ff fuel (size om + 1) p d T with "HT [Hpn Hpp Hpd Hpi] Ht"); [done|done|done|lia|lia|apply dataok_treads; [by apply HQ|done|done]|iFrame; done|].
      iIntros (T' q ys kw (Hys & Hin & HT' & _ & _ & Hkw)) "HT Ht Hcase".
      assert (Hwork : trwork (length (inorder T)) (TrInsert p d) kw) by (exists (depth T); split; [by apply avl_log|lia]).
      iDestruct "Hcase" as "[(%a & %b & %Hx)|(%e & %Hx & Hn)]".
      + destruct Hx as (-> & Hx1 & Hx2 & Ha & Hb). cbn [fst snd].
        iDestruct (treeR_data T' p d with "HT") as "[Hd HT]"; [rewrite Hx2; set_solver|]. wp_load. iDestruct ("HT" with "Hd") as "HT".
        wp_ret. wp_bind. iApply (wp_tape_take with "Ht"). iIntros "Ht". wp_ret.
        iApply ("HΦ" with "[]").
        { iPureIntro. split; [|done]. exists c, (inorder T). eexists _, _. split; [done|]. split; [done|]. split; [by apply few_calls_intro|].
          right. exists a, b. done. }
        rewrite /TRel /=. iFrame "Hpool Hc Ht". iExists T', ff. iFrame "HT". iSplit.
        * iPureIntro. rewrite decide_True //. rewrite -Hx2. split.
          { f_equal. f_equal. rewrite Hx1 Hx2 !app_length /=. rewrite Hx1 app_length in Hsz. rewrite /add64 Z.mod_small; lia. }
          split; [done|]. rewrite Hx2. split; [apply dataok_insert; [by rewrite -Hx1|done]|]. split; [|done]. apply increasing_insert; [by rewrite -Hx1|done|done].
        * rewrite Hx1 !big_sepL_app /=. iDestruct "Hr" as "[$ $]". iFrame.
      + destruct Hx as (Hx1 & Hx2 & Hx3). cbn [fst snd].
        iAssert ⌜q ≠ p⌝%I as %Hqp.
        { iIntros (->). iDestruct (treeR_data T' p e with "HT") as "[Hd HT]"; [by rewrite Hx1|].
          iDestruct "Hn" as "(_ & _ & _ & Hd' & _)". iApply (mapsto_excl with "Hd Hd'"). }
        iDestruct (treeR_data T' q e with "HT") as "[Hd HT]"; [by rewrite Hx1|]. wp_load. iDestruct ("HT" with "Hd") as "HT".
        wp_ret. wp_bind. iApply (wp_tape_take with "Ht"). iIntros "Ht". wp_ret.
        rewrite nodeT_fnode. iDestruct (pool_give 4 with "Hn Hrp Hpool") as "Hpool"; [lia|].
        rewrite difference_union_L (comm_L (∪)) (subseteq_union_1_L {[p]} (ts_free s)); [|set_solver].
        iApply ("HΦ" $! _ _ s _ with "[]").
        { iPureIntro. split; [|done]. exists c, (inorder T). eexists _, _. split; [done|]. split; [done|]. split; [by apply few_calls_intro|].
          left. exists q. done. }
        rewrite /TRel Hxs /=. iFrame "Hpool Hc Ht". iExists T', ff. rewrite Hx1. iFrame "HT Hr". 
        iPureIntro. rewrite decide_False //.
    - (* remove *)
      destruct Hpre as [_ HDd].
      wp_bind. iApply (wp_tree_remove_w with "HT Ht"); [done|apply dataok_treads; [by apply HQ|done|done]|done..|]. iIntros (z T' ys kw (Hfc & HT' & Hwork & _)) "HT Ht Hcase". cbn [fst snd].
      wp_bind. iApply (wp_tape_take with "Ht"). iIntros "Ht". wp_ret.
      iDestruct "Hcase" as "[(%a & %q & %b & %Hx & Hn)|%Hx]".
      + destruct Hx as (Hx1 & Hx2 & Hx3). rewrite Hx1 big_sepL_app /=. iDestruct "Hr" as "(Hr1 & Hr & Hr2)".
        iDestruct (pool_give 4 with "Hn Hr Hpool") as "Hpool"; [lia|].
        iApply ("HΦ" with "[]").
        { iPureIntro. split; [|by rewrite -Hx1]. exists c, (inorder T), z, ys. split; [done|]. split; [done|]. split; [done|]. left. exists a, q, b. done. }
        rewrite /TRel /=. iFrame "Hpool Hc Ht". iExists T', ff. rewrite big_sepL_app. iFrame. iPureIntro. rewrite Hx2. split; [done|].
        split; [done|]. rewrite Hx1 in Hinc, Hdo. split; [by eapply dataok_remove|]. split; [|done]. by eapply increasing_remove.
      + destruct Hx as (Hx1 & -> & Hx3). iApply ("HΦ" $! _ _ s _ with "[]").
        { iPureIntro. split; [|done]. exists c, (inorder T), 0, ys. split; [done|]. split; [done|]. split; [done|]. by right. }
        rewrite /TRel Hxs /=. iFrame "Hpool Hc Ht". iExists T', ff. rewrite Hx1. iFrame. done.
    - (* remove_existing *)
      destruct Hpre as (c' & xs & d & Hxs' & Hpd & Hd0). rewrite Hxs in Hxs'. injection Hxs' as <- <-.
      rewrite /tree_remove_existing_w. wp_bind. iDestruct (treeR_data with "HT") as "[Hd HT]"; first done. wp_load.
      iDestruct ("HT" with "Hd") as "HT". wp_bind.
      iApply (wp_tree_remove_w with "HT Ht"); [done|eapply dataok_elem; [by apply HQ|done|done]|done..|]. iIntros (z T' ys kw (Hfc & HT' & Hwork & _)) "HT Ht Hcase". cbn [fst snd].
      assert (Hrefl : c d d = 0) by (destruct Htp as [Hanti _]; specialize (Hanti d d); lia).
      iDestruct "Hcase" as "[(%a & %q & %b & %Hx & Hn)|%Hx]".
      2:{ destruct Hx as (_ & _ & Hall). rewrite Forall_forall in Hall. by specialize (Hall _ Hpd). }
      destruct Hx as (Hx1 & Hx2 & Hx3).
      assert (Heq : (p, d) = (q, z)).
      { eapply increasing_unique; [exact Htp|exact Hinc|done|rewrite Hx1; set_solver|done]. }
      injection Heq as <- <-. wp_assert; [by apply bool_decide_eq_true|]. wp_ret.
      wp_bind. iApply (wp_tape_take with "Ht"). iIntros "Ht". wp_ret.
      rewrite Hx1 big_sepL_app /=. iDestruct "Hr" as "(Hr1 & Hr & Hr2)".
      iDestruct (pool_give 4 with "Hn Hr Hpool") as "Hpool"; [lia|].
      iApply ("HΦ" with "[]").
      { iPureIntro. split; [|by rewrite -Hx1]. exists c, a, d, b, ys. rewrite -Hx1. done. }
      rewrite /TRel /=. iFrame "Hpool Hc Ht". iExists T', ff. rewrite big_sepL_app. iFrame. iPureIntro. rewrite Hx2. split; [done|].
      split; [done|]. rewrite Hx1 in Hinc, Hdo. split; [by eapply dataok_remove|]. split; [|done]. by eapply increasing_remove.
    - (* search *)
      destruct Hpre as [_ HDd]. rewrite /tree_search. wp_bind. wp_bind. wp_bind. simpl.
      iApply (wp_search_node t ff c d T fuel with "HT Ht"); [by apply increasing_directed|lia|apply dataok_treads; [by apply HQ|done|done]|].
      iIntros (q ys (Hys & Hin & Hcase)) "HT Ht".
      iAssert (∀ z, ⌜(∃ q, (q, z) ∈ inorder T ∧ c d z = 0) ∨ (Forall (λ x, c d x.2 ≠ 0) (inorder T) ∧ z = 0)⌝ -∗
        treeR T -∗ wp (l ← tape_take t; mret (Some (TreeS (root T) (TC t ff) (Z.of_nat (length (inorder T)))), TrFound z l)) (λ r, wp (mret (r, 0)) Φ))%I
        with "[-HT]" as "Hfin".
      { iIntros (z Hz) "HT". wp_bind. iApply (wp_tape_take with "Ht"). iIntros "Ht". wp_ret. wp_ret.
        iApply ("HΦ" $! _ _ s _ with "[]").
        { iPureIntro. split; [|done]. exists c, (inorder T). eexists _, _. split; [done|]. split; [done|]. split; [by apply few_calls_intro|]. done. }
        rewrite /TRel Hxs. iFrame. iExists T, ff. by iFrame. }
      destruct Hcase as [(e & Hqe & He & Hq)|[-> Hall]].
      + wp_if. iDestruct (treeR_data with "HT") as "[Hd HT]"; first done. wp_load. iDestruct ("HT" with "Hd") as "HT".
        iApply ("Hfin" with "[] HT"). iPureIntro. left. eauto.
      + wp_if. wp_ret. iApply ("Hfin" with "[] HT"). iPureIntro. by right.
    - (* search_compare *)
      destruct Hpre as (c' & xs & Hxs' & Hsub & Hrd). rewrite Hxs in Hxs'. injection Hxs' as <- <-.
      rewrite /tree_search_compare. wp_bind. wp_bind. wp_bind. simpl.
      iApply (wp_search_node t f0 f k T fuel with "HT Ht"); [by eapply suborder_directed|lia|intros y Hy; eapply reads_mono; [|by apply Hrd]; done|].
      iIntros (q ys (Hys & Hin & Hcase)) "HT Ht".
      iAssert (∀ z, ⌜(∃ q, (q, z) ∈ inorder T ∧ f k z = 0) ∨ (Forall (λ x, f k x.2 ≠ 0) (inorder T) ∧ z = 0)⌝ -∗
        treeR T -∗ wp (l ← tape_take t; mret (Some (TreeS (root T) (TC t ff) (Z.of_nat (length (inorder T)))), TrFound z l)) (λ r, wp (mret (r, 0)) Φ))%I
        with "[-HT]" as "Hfin".
      { iIntros (z Hz) "HT". wp_bind. iApply (wp_tape_take with "Ht"). iIntros "Ht". wp_ret. wp_ret.
        iApply ("HΦ" $! _ _ s _ with "[]").
        { iPureIntro. split; [|done]. exists c, (inorder T). eexists _, _. split; [done|]. split; [done|]. split; [by apply few_calls_intro|]. done. }
        rewrite /TRel Hxs. iFrame. iExists T, ff. by iFrame. }
      destruct Hcase as [(e & Hqe & He & Hq)|[-> Hall]].
      + wp_if. iDestruct (treeR_data with "HT") as "[Hd HT]"; first done. wp_load. iDestruct ("HT" with "Hd") as "HT".
        iApply ("Hfin" with "[] HT"). iPureIntro. left. eauto.
      + wp_if. wp_ret. iApply ("Hfin" with "[] HT"). iPureIntro. by right.
    - (* count *)
      wp_bind. wp_ret. wp_ret. iApply ("HΦ" $! _ _ s _ with "[]"); [iPureIntro; split; [|done]; exists c, (inorder T); done|].
      rewrite /TRel Hxs. iFrame. iExists T, ff. by iFrame.
    - (* usage *)
      wp_bind. wp_ret. wp_ret. iApply ("HΦ" $! _ _ s _ with "[]").
      { iPureIntro. split; [|done]. exists c, (inorder T). split; [done|]. split; [|done]. rewrite /tree_memory_usage /tree_count /=. f_equal.
        rewrite /wrap Z.mod_small; lia. }
      rewrite /TRel Hxs. iFrame. iExists T, ff. by iFrame.
    - (* foreach *)
      wp_bind. wp_bind. rewrite /tree_foreach /=.
      pose (I := (λ dn : list (Z * Z), t ↦ Tape dn.*2)%I).
      iApply (wp_foreach_node nodeT I _ (inorder T) T fuel [] [] with "[] HT Ht"); [by rewrite app_nil_r|lia| |].
      { iIntros "!>" (dn p d i nx pv more _) "Ht Hn". iApply (wp_visit with "Ht"). rewrite /I fmap_app. iIntros "$". done. }
      iIntros "Ht HT". wp_bind. iApply (wp_tape_take with "Ht"). iIntros "Ht". wp_ret. wp_ret.
      iApply ("HΦ" $! _ _ s _ with "[]"); [iPureIntro; split; [|done]; exists c, (inorder T); done|].
      rewrite /TRel Hxs. iFrame. iExists T, ff. by iFrame.
    - (* foreach_arg *)
      wp_bind. wp_bind. rewrite /tree_foreach_arg /=.
      pose (I := (λ dn : list (Z * Z), t ↦ Tape (x ← dn; [arg; x.2]))%I).
      iApply (wp_foreach_node nodeT I _ (inorder T) T fuel [] [] with "[] HT Ht"); [by rewrite app_nil_r|lia| |].
      { iIntros "!>" (dn p d i nx pv more _) "Ht Hn". iApply (wp_visit_arg with "Ht"). rewrite /I bind_app. iIntros "$". done. }
      iIntros "Ht HT". wp_bind. iApply (wp_tape_take with "Ht"). iIntros "Ht". wp_ret. wp_ret.
      iApply ("HΦ" $! _ _ s _ with "[]"); [iPureIntro; split; [|done]; exists c, (inorder T); done|].
      rewrite /TRel Hxs. iFrame. iExists T, ff. by iFrame.
    - (* foreach with free *)
      destruct Hpre as (c' & xs & Hxs' & HF). rewrite Hxs in Hxs'. injection Hxs' as <- <-.
      wp_bind. wp_bind. rewrite /tree_foreach /=. iApply (wp_tree_foreach_free with "HT Hr Hc Ht"); [done|done|]. iIntros "Hc Ht".
      wp_bind. iApply (wp_tape_take with "Ht"). iIntros "Ht". wp_ret. wp_ret.
      iApply ("HΦ" with "[]"); [iPureIntro; split; [|done]; exists c, (inorder T); done|].
      rewrite /TRel /=. iFrame. done.
  Qed.

  Lemma wp_trstep fuel cs s o Φ :
    (size om + 4 ≤ fuel)%nat → K ⊆ memG_frame → (compares o → Q) →
    trpre om K D s o →
    TRel cs s -∗ (∀ cs' a s', ⌜trpost s o a s'⌝ -∗ TRel cs' s' -∗ Φ (cs', a)) -∗
    wp (trstep fuel t cs o) Φ.
  Proof.
    iIntros (Hf HK HQ Hpre) "HR HΦ". iApply (wp_erases _ _ _ (trstep_erase fuel t cs o)). iApply (wp_trstep_w with "HR"); [done|done|done|done|].
    iIntros (cs' a s' n [Hp _]) "HR". by iApply ("HΦ" with "[] HR").
  Qed.
End tree_hist.

(** A transcript that also remembers that the preconditions held. *)
Definition trboth (om : objmap) (K : mem) (D : Z → Prop) (s : trstate) (o : trop) (a : trout) (s' : trstate) : Prop :=
  trpre om K D s o ∧ trpost s o a s'.

Lemma allowed_both {op out sst} (pre : sst → op → Prop) (post : sst → op → out → sst → Prop) c : ∀ s,
  allowed pre post s c → allowed pre (λ s o a s', pre s o ∧ post s o a s') s c.
Proof. induction c as [|o k IH]; intros s; [done|]. intros [Hp Ha]. split; [done|]. intros a s' [_ Hs']. by apply IH, Ha. Qed.

Lemma correct_mono {op out sst} (post post' : sst → op → out → sst → Prop) s tr s' :
  (∀ s o a s', post s o a s' → post' s o a s') → correct post s tr s' → correct post' s tr s'.
Proof. intros Hm. induction 1; econstructor; eauto. Qed.

Lemma treeR_at `{!memG} m T : memI m -∗ treeR T -∗ ⌜tree_at m T⌝.
Proof.
  iIntros "Hm HT". iInduction T as [|p d i l r] "IH"; [done|]. iEval (rewrite treeR_node) in "HT".
  iDestruct "HT" as "((%Hp & Hn & Hv & Hd & Hi) & Hl & Hr)".
  iDestruct ("IH" with "Hm Hl") as %Hl. iDestruct ("IH1" with "Hm Hr") as %Hr.
  iDestruct (memI_lookup with "Hm Hn") as %?. iDestruct (memI_lookup with "Hm Hv") as %?.
  iDestruct (memI_lookup with "Hm Hd") as %?. iDestruct (memI_lookup with "Hm Hi") as %?. done.
Qed.

Definition tree_end_both (om : objmap) (K : mem) (D : Z → Prop) (live : gmap Z region) (cs : option treeS) (tr : list (trop * trout)) (m' : mem) : Prop :=
  ∃ s', correct (trboth om K D) (trstate0 om live) tr s' ∧ heap_live m' (ts_live s') ∧
  match ts_tree s' with
  | None => cs = None
  | Some (c, xs) => ∃ st T, cs = Some st ∧ tr_root st = root T ∧ tree_at m' T ∧ inorder T = xs ∧
      avl T ∧ increasing c xs ∧ tr_count st = Z.of_nat (length xs)
  end.

Lemma tree_history_both om K D t live m fuel c :
  tree_start om K t live m → (size om + 4 ≤ fuel)%nat →
  allowed (trpre om K D) trpost (trstate0 om live) c →
  succeeds (run (trstep fuel t) None c m) (λ r m',
    tree_end_both om K D live r.1 r.2 m' ∧ unchanged_outside (HCTL :: t :: objs_cells om) m m').
Proof.
  intros (Hok & Ht & (h & Hh & <-) & Hap) Hf Ha. apply allowed_both in Ha.
  pose proof (client_adequacy False (run (trstep fuel t) None c) 4 om [HCTL; t] m
    (λ r m', tree_end_both om K D (hc_live h) r.1 r.2 m') Hok) as Had.
  apply Had.
  { intros a [->|[->|Hin]%elem_of_cons]%elem_of_cons; [eauto..|]. by apply elem_of_nil in Hin. }
  intros HG _ HF. apply separate_frame in Hap. rewrite -HF in Hap. iIntros "(Hc & Htt & _) Hpool".
  iApply (wp_run _ (trpre om K D) (trboth om K D) (TRel om t D True) with "[Hc Htt Hpool]").
  - intros cs s o Φ Hpre. iIntros "HR HΦ". iApply (wp_trstep with "HR"); [eauto|done|done|done|done|].
    iIntros (cs' a s' Hp) "HR". iApply ("HΦ" with "[] HR"). done.
  - exact Ha.
  - rewrite /TRel /=. iFrame "Hpool". iSplitL "Hc"; [|iSplitL; [|done]].
    + iDestruct "Hc" as (c0 Hc0) "Hc". simplify_eq. iExists (hc_oracle h), (hc_next h). by destruct h.
    + iDestruct "Htt" as (c0 Hc0) "Htt". by simplify_eq.
  - iIntros (cs tr s' Hcor) "(_ & (%o & %n & Hc) & _ & HT)". iIntros (m') "Hm".
    iDestruct (memI_lookup with "Hm Hc") as %Hl. simpl.
    iAssert ⌜match ts_tree s' with
      | None => cs = None
      | Some (c, xs) => ∃ st T, cs = Some st ∧ tr_root st = root T ∧ tree_at m' T ∧ inorder T = xs ∧
          avl T ∧ increasing c xs ∧ tr_count st = Z.of_nat (length xs)
      end⌝%I with "[Hm HT]" as %Htree.
    { destruct (ts_tree s') as [[c0 xs]|]; [|done]. iDestruct "HT" as (T ff (-> & _ & _ & Hinc & Havl & Hxs)) "[HT _]".
      iDestruct (treeR_at with "Hm HT") as %Hat. iPureIntro. eexists _, T. done. }
    iPureIntro. exists s'. split; [done|]. split; [|done]. exists (HeapCtl (ts_live s') o n). done.
Qed.

Lemma tree_end_weaken om K D live cs tr m' : tree_end_both om K D live cs tr m' → tree_end om live cs tr m'.
Proof.
  intros (s' & Hc & Hh & Ht). exists s'. split; [by eapply correct_mono; [|exact Hc]; intros ? ? ? ? [_ ?]|]. split; [done|].
  destruct (ts_tree s') as [[c xs]|]; [|done]. destruct Ht as (st & T & H1 & H2 & H3 & <- & H5 & H6 & H7).
  exists st, T. split; [done|]. split; [done|]. split; [done|]. split; [done|]. split; [done|].
  split; [by apply avl_log|]. split; [by apply avl_height_balanced|done].
Qed.

Lemma tree_history om K D t live m fuel c :
  tree_start om K t live m → (size om + 4 ≤ fuel)%nat →
  allowed (trpre om K D) trpost (trstate0 om live) c →
  succeeds (run (trstep fuel t) None c m) (λ r m',
    tree_end om live r.1 r.2 m' ∧ unchanged_outside (HCTL :: t :: objs_cells om) m m').
Proof.
  intros Hs Hf Ha. pose proof (tree_history_both om K D t live m fuel c Hs Hf Ha) as H. unfold succeeds in *.
  destruct (run (trstep fuel t) None c m) as [r m'| | |]; try done. destruct H as [H1 H2]. split; [by eapply tree_end_weaken|done].
Qed.

(** ** Counting the calls of tommy_tree_balance *)
Definition trboth_n (om : objmap) (K : mem) (D : Z → Prop) (s : trstate) (o : trop) (a : trout * Z) (s' : trstate) : Prop :=
  trboth om K D s o a.1 s' ∧ trwork (length (telems s)) o a.2.

Lemma client_succeeds {A} (c : M A) nw om others m (φ : A → mem → Prop) :
  client_ok nw om others m → (∀ a, a ∈ others → is_Some (m !! a)) →
  (∀ `{!memG}, memG_env = False → memG_frame = filter (λ kc, kc.1 ∉ others ++ objs_cells om) m →
     ([∗ list] a ∈ others, ∃ c, ⌜m !! a = Some c⌝ ∗ a ↦ c) -∗ pool nw om (dom om) -∗
     wp c (λ v, ∀ m', memI m' -∗ ⌜φ v m'⌝)) →
  succeeds (c m) φ.
Proof.
  intros H1 H2 H3. pose proof (client_adequacy False c nw om others m φ H1 H2 H3) as H. unfold succeeds.
  destruct (c m) as [v m'| | |]; [|done..]. by destruct H.
Qed.

Lemma tree_history_n om K D t live m fuel c :
  tree_start om K t live m → (size om + 4 ≤ fuel)%nat →
  allowed (trpre om K D) (λ s o a s', trpost s o a.1 s') (trstate0 om live) c →
  succeeds (run (trstep_n fuel t) None c m) (λ r m', ∃ s', correct (trboth_n om K D) (trstate0 om live) r.2 s').
Proof.
  intros (Hok & Ht & (h & Hh & <-) & Hap) Hf Ha.
  assert (Ha' : allowed (trpre om K D) (trboth_n om K D) (trstate0 om (hc_live h)) c).
  { clear -Ha. revert Ha. generalize (trstate0 om (hc_live h)). induction c as [|o k IH]; intros s; [done|]. intros [Hp Ha].
    split; [done|]. intros a s' [[_ Hs'] _]. by apply IH, Ha. }
  apply (client_succeeds _ 4 om [HCTL; t]); [done| |].
  { intros a [->|[->|Hin]%elem_of_cons]%elem_of_cons; [eauto..|]. by apply elem_of_nil in Hin. }
  intros HG _ HF. apply separate_frame in Hap. rewrite -HF in Hap. iIntros "(Hc & Htt & _) Hpool".
  iApply (wp_run _ (trpre om K D) (trboth_n om K D) (TRel om t D True) with "[Hc Htt Hpool]").
  - intros cs s o Φ Hpre. iIntros "HR HΦ". rewrite /trstep_n. wp_bind. iApply (wp_trstep_w with "HR"); [eauto|done|done|done|done|].
    iIntros (cs' a s' n [Hp Hw]) "HR". wp_ret. iApply ("HΦ" with "[] HR"). done.
  - exact Ha'.
  - rewrite /TRel /=. iFrame "Hpool". iSplitL "Hc"; [|iSplitL; [|done]].
    + iDestruct "Hc" as (c0 Hc0) "Hc". simplify_eq. iExists (hc_oracle h), (hc_next h). by destruct h.
    + iDestruct "Htt" as (c0 Hc0) "Htt". by simplify_eq.
  - iIntros (cs tr s' Hcor) "_". iIntros (m1) "_". iPureIntro. by exists s'.
Qed.

Lemma wp_peek `{!memG} {A} (c : M A) (φ : A → Prop) m :
  wp c (λ v, ⌜φ v⌝) -∗ memI m -∗ ⌜match c m with Ok v _ => φ v | Env _ => memG_env | UB | Fuel => False end⌝.
Proof.
  rewrite wp_unseal. iIntros "H Hm". iApply bupd_plain. iMod ("H" with "Hm") as "H". iModIntro.
  destruct (c m) as [v m'| | |]; [|done..]. iDestruct "H" as "[_ $]".
Qed.

Lemma avl_log2 T : avl T → 3 ≤ Z.log2 (Z.of_nat (length (inorder T)) + 1) →
  2 ≤ idx T ∧ Z.log2 (Z.of_nat (length (inorder T)) + 1) - 3 ≤ idx T - 2.
Proof.
  intros HT H3. pose proof (avl_depth _ HT). 
  assert (Hn : Z.of_nat (length (inorder T)) + 1 ≤ 2 ^ Z.of_nat (depth T)).
  { clear. induction T as [|p d i l IHl r IHr]; [done|]. cbn [inorder depth]. rewrite app_length. cbn [length].
    rewrite Nat2Z.inj_succ Z.pow_succ_r; [|lia].
    assert (2 ^ Z.of_nat (depth l) ≤ 2 ^ Z.of_nat (Nat.max (depth l) (depth r))) by (apply Z.pow_le_mono_r; lia).
    assert (2 ^ Z.of_nat (depth r) ≤ 2 ^ Z.of_nat (Nat.max (depth l) (depth r))) by (apply Z.pow_le_mono_r; lia). lia. }
  apply Z.log2_le_mono in Hn. rewrite Z.log2_pow2 in Hn; [|lia]. lia.
Qed.

(** At the end of any history there is an element whose removal takes long. *)
Lemma tree_remove_long om K D t live m fuel c :
  tree_start om K t live m → (size om + 4 ≤ fuel)%nat →
  allowed (trpre om K D) trpost (trstate0 om live) c →
  succeeds (run (trstep fuel t) None c m) (λ r m', ∃ s', correct (trboth om K D) (trstate0 om live) r.2 s' ∧
    let N := Z.of_nat (length (telems s')) in
    (3 ≤ Z.log2 (N + 1) → ∃ p d, (p, d) ∈ telems s' ∧
      succeeds (trstep_w fuel t r.1 (TrRemove d) m') (λ x _, (Z.log2 (N + 1) - 3) * (Z.log2 (N + 1) - 3) ≤ 8 * x.2))).
Proof.
  intros (Hok & Ht & (h & Hh & <-) & Hap) Hf Ha. apply allowed_both in Ha.
  apply (client_succeeds _ 4 om [HCTL; t]); [done| |].
  { intros a [->|[->|Hin]%elem_of_cons]%elem_of_cons; [eauto..|]. by apply elem_of_nil in Hin. }
  intros HG HE HF. apply separate_frame in Hap. rewrite -HF in Hap. iIntros "(Hc & Htt & _) Hpool".
  iApply (wp_run _ (trpre om K D) (trboth om K D) (TRel om t D True) with "[Hc Htt Hpool]").
  - intros cs s o Φ Hpre. iIntros "HR HΦ". iApply (wp_trstep with "HR"); [eauto|done|done|done|done|].
    iIntros (cs' a s' Hp) "HR". iApply ("HΦ" with "[] HR"). done.
  - exact Ha.
  - rewrite /TRel /=. iFrame "Hpool". iSplitL "Hc"; [|iSplitL; [|done]].
    + iDestruct "Hc" as (c0 Hc0) "Hc". simplify_eq. iExists (hc_oracle h), (hc_next h). by destruct h.
    + iDestruct "Htt" as (c0 Hc0) "Htt". by simplify_eq.
  - iIntros (cs tr s' Hcor) "(_ & _ & Ht & HT)". iIntros (m') "Hm". cbn [fst snd]. iExists s'. iSplit; [done|].
    iIntros (H3). rewrite /telems in H3 |- *. destruct (ts_tree s') as [[c0 xs]|]; [|by simpl in H3].
    iDestruct "HT" as (T ff (-> & Hpo & Hdo & Hinc & Havl & <-)) "[HT Hr]". destruct (avl_log2 T Havl H3) as [H4 H5].
    destruct T as [|p e i l r]; [by simpl in H4|]. iExists p, e. iSplit; [iPureIntro; simpl; set_solver|].
    iDestruct (treeR_size with "HT Hr") as %[Hsz Hnd].
    iAssert (wp (trstep_w fuel t (Some (TreeS (root (Node p e i l r)) (TC t ff) (Z.of_nat (length (inorder (Node p e i l r)))))) (TrRemove e))
      (λ x, ⌜(Z.log2 (Z.of_nat (length (inorder (Node p e i l r))) + 1) - 3) * (Z.log2 (Z.of_nat (length (inorder (Node p e i l r))) + 1) - 3) ≤ 8 * x.2⌝))%I
      with "[HT Ht]" as "Hwp".
    { rewrite /trstep_w. wp_bind. iApply (wp_tree_remove_w with "HT Ht"); [eauto|done|apply (dataok_elem D True _ _ _ p); [done|done|simpl; set_solver]|done|done|done|done|].
      iIntros (z T' ys k (_ & _ & _ & Hk)) "_ Ht _". wp_bind. iApply (wp_tape_take with "Ht"). iIntros "Ht". wp_ret. iPureIntro.
      assert (c0 e e = 0) as He by (destruct Hpo as [Hanti _]; specialize (Hanti e e); lia).
      cbn [idx] in H4, H5. specialize (Hk He H4). cbn [snd]. etrans; [|exact Hk]. apply Z.mul_le_mono_nonneg; lia. }
    iDestruct (wp_peek with "Hwp Hm") as %Hpk. iPureIntro. rewrite HE in Hpk. exact Hpk.
Qed.
