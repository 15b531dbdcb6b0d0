(** * History theorem for the hashtables, from specifications of their operations. *)
From Verif Require Export BucketProof.
Global Open Scope Z_scope.
Local Typeclasses Transparent nodeP freenode freenode_i lst.

Lemma NoDup_bind_sub {A} (l : list A) (f g : A → list Z) :
  NoDup (l ≫= f) → (∀ x, x ∈ l → g x ⊆ f x ∧ NoDup (g x)) → NoDup (l ≫= g).
Proof.
  induction l as [|x l IH]; intros Hnd Hg; [constructor|]. rewrite !bind_cons in Hnd |- *.
  apply NoDup_app in Hnd as (H1 & H2 & H3). destruct (Hg x ltac:(by left)) as [Hs Hn].
  apply NoDup_app. split; [done|]. split; [|apply IH; [done|]; intros y Hy; apply Hg; by right].
  intros a Ha (y & Hay & Hy)%elem_of_list_bind. apply (H2 a); [by apply Hs|].
  apply elem_of_list_bind. exists y. split; [|done]. apply (Hg y); [by right|done].
Qed.

(** Nodes of [nw] words that do not overlap are few. *)
Lemma client_size_words nw om others m :
  (0 < nw)%nat → client_ok nw om others m → Z.of_nat nw * Z.of_nat (size om) < 2 ^ 61.
Proof.
  intros Hnw (Hn & Hnd & _). apply NoDup_app in Hnd as (_ & _ & Hnd).
  assert (Hnd' : NoDup (map_to_list om ≫= λ po, node_cells nw po.1)).
  { eapply NoDup_bind_sub; [exact Hnd|]. intros [p o] Hp%elem_of_map_to_list.
    destruct (Hn _ _ Hp) as (_&_&_&Hs). split; [done|apply node_cells_NoDup]. }
  apply aligned_length in Hnd'.
  - assert (Hl : ∀ l : list (Z * (Z * nat)), length (l ≫= λ po, node_cells nw po.1) = (nw * length l)%nat).
    { induction l as [|x l IH]; [simpl; lia|]. rewrite bind_cons app_length IH.
      rewrite /node_cells fmap_length seq_length /=. lia. }
    rewrite Hl in Hnd'. rewrite /size /map_size. lia.
  - rewrite Forall_forall. intros a ([p o] & Ha & Hp%elem_of_map_to_list)%elem_of_list_bind.
    destruct (Hn _ _ Hp) as (?&Hm&?&_). simpl in Ha.
    apply elem_of_list_fmap in Ha as (i & -> & Hi%elem_of_seq). split; [lia|]. split; [|lia].
    rewrite Z.mul_comm Z.mod_add //.
Qed.

Definition en (e : elem) : ent := Ent (e_p e) (e_d e) (e_h e).
Lemma en_p_fmap (es : list elem) : en_p <$> (en <$> es) = e_p <$> es.
Proof. by rewrite -list_fmap_compose. Qed.
Lemma en_d_fmap (es : list elem) : en_d <$> (en <$> es) = e_d <$> es.
Proof. by rewrite -list_fmap_compose. Qed.
Lemma en_filter h es : filter (λ e, en_h e = h) (en <$> es) = en <$> fh h es.
Proof.
  induction es as [|e es IH]; [done|]. csimpl. rewrite filter_cons /=.
  destruct (decide (e_h e = h)).
  - by rewrite fh_cons_eq // IH.
  - by rewrite fh_cons_ne // IH.
Qed.
Lemma en_calls arg h es : calls arg h (en <$> es) = ecalls arg h es.
Proof. rewrite /calls /ecalls en_filter. induction (fh h es) as [|e l IH]; [done|]. csimpl. by rewrite IH. Qed.
Lemma en_acc f arg h es : Forall (λ e, ¬ eacc f arg h e) es → Forall (λ e, ¬ accepts f arg h e) (en <$> es).
Proof. intros H. apply Forall_fmap. exact H. Qed.

Section table_hist.
  Context `{!memG}.
  Variable om : objmap.
  Variable t : Z.
  Variable T : table.
  (** Representation of a table with elements [es] and heap blocks [int]; what
      is left of it when the elements are gone; the facts to report. *)
  Variable rep : tb_st T → list elem → gmap Z region → iProp.
  Variable shell : tb_st T → gmap Z region → iProp.
  Variable inv : tb_st T → nat → Prop.

  Definition tabR (st : tb_st T) (es : list elem) (cl : gmap Z region) : iProp :=
    ∃ int, ⌜int ##ₘ cl⌝ ∗ rep st es int ∗ hctl (int ∪ cl).

  Definition fits (fuel : nat) (n : nat) : Prop := (n ≤ fuel)%nat ∧ Z.of_nat n < 2 ^ 59.

  Hypothesis rep_nodes : ∀ st es int,
    rep st es int ⊢ ([∗ list] e ∈ es, ∃ nx pv, nodeP e nx pv) ∗ shell st int.
  Hypothesis rep_inv : ∀ st es int,
    rep st es int ⊢ ⌜Forall hashed es ∧ tb_count T st = Z.of_nat (length es) ∧ inv st (length es)⌝.
  Hypothesis wp_t_init : ∀ n cl Φ, 0 <= n <= 2 ^ 60 →
    hctl cl -∗ (∀ st, tabR st [] cl -∗ Φ st) -∗ wp (tb_init T n) Φ.
  Hypothesis wp_t_done : ∀ st int cl Φ, int ##ₘ cl →
    shell st int -∗ hctl (int ∪ cl) -∗ (hctl cl -∗ Φ tt) -∗ wp (tb_done T st) Φ.
  Hypothesis wp_t_insert : ∀ fuel st es p d h cl Φ, fits fuel (S (length es)) → word h →
    tabR st es cl -∗ freenode p -∗ (∀ st', tabR st' (es ++ [El p d (W h)]) cl -∗ Φ st') -∗
    wp (tb_insert T fuel st p d h) Φ.
  Hypothesis wp_t_remove : ∀ fuel st es ff f arg h cl Φ, fits fuel (length es) → word h → ereads ff f arg h es →
    tabR st es cl -∗ t ↦ Tape [] -∗
    ((∀ st' es1 e es2 nx pv, ⌜es = es1 ++ e :: es2⌝ -∗ ⌜eacc f arg h e⌝ -∗
        ⌜Forall (λ e, ¬ eacc f arg h e) es1⌝ -∗ tabR st' (es1 ++ es2) cl -∗ nodeP e nx pv -∗
        t ↦ Tape (ecalls arg h (es1 ++ [e])) -∗ Φ (st', e_d e)) ∧
     (⌜Forall (λ e, ¬ eacc f arg h e) es⌝ -∗ tabR st es cl -∗ t ↦ Tape (ecalls arg h es) -∗ Φ (st, 0))) -∗
    wp (tb_remove T fuel st (tape_cmp t (λ _, ff)) arg h) Φ.
  Hypothesis wp_t_remove_existing : ∀ fuel st es1 e es2 cl Φ, fits fuel (length (es1 ++ e :: es2)) →
    tabR st (es1 ++ e :: es2) cl -∗
    (∀ st' nx pv, tabR st' (es1 ++ es2) cl -∗ nodeP e nx pv -∗ Φ (st', e_d e)) -∗
    wp (tb_remove_existing T fuel st (e_p e)) Φ.
  Hypothesis wp_t_search : ∀ fuel st es ff f arg h int Φ, fits fuel (length es) → word h → ereads ff f arg h es →
    rep st es int -∗ t ↦ Tape [] -∗
    ((∀ es1 e es2, ⌜es = es1 ++ e :: es2⌝ -∗ ⌜eacc f arg h e⌝ -∗
        ⌜Forall (λ e, ¬ eacc f arg h e) es1⌝ -∗ rep st es int -∗
        t ↦ Tape (ecalls arg h (es1 ++ [e])) -∗ Φ (e_d e)) ∧
     (⌜Forall (λ e, ¬ eacc f arg h e) es⌝ -∗ rep st es int -∗ t ↦ Tape (ecalls arg h es) -∗ Φ 0)) -∗
    wp (tb_search T fuel st (tape_cmp t (λ _, ff)) arg h) Φ.
  Hypothesis wp_t_bucket : ∀ st es h int Φ, word h →
    rep st es int -∗
    (∀ b pv, ⌜b ⊆+ es⌝ -∗ ⌜fh h b = fh h es⌝ -∗ dseg b pv 0 -∗ (dseg b pv 0 -∗ rep st es int) -∗ Φ (hd_p b 0)) -∗
    wp (tb_bucket T st h) Φ.
  Hypothesis wp_t_foreach_ro : ∀ fuel st es int func (I : list elem → iProp) Φ, fits fuel (length es) →
    □ (∀ dn x, I dn -∗ wp (func (e_d x)) (λ _, I (dn ++ [x]))) -∗
    rep st es int -∗ I [] -∗ (∀ es', ⌜es' ≡ₚ es⌝ -∗ rep st es int -∗ I es' -∗ Φ tt) -∗
    wp (tb_foreach T fuel st func) Φ.
  Hypothesis wp_t_foreach : ∀ fuel st es int func (I : list elem → iProp) Φ, fits fuel (length es) →
    □ (∀ dn x more nx pv, ⌜dn ++ x :: more ≡ₚ es⌝ -∗ I dn -∗ nodeP x nx pv -∗ wp (func (e_d x)) (λ _, I (dn ++ [x]))) -∗
    rep st es int -∗ I [] -∗ (∀ es', ⌜es' ≡ₚ es⌝ -∗ shell st int -∗ I es' -∗ Φ tt) -∗
    wp (tb_foreach T fuel st func) Φ.
  Hypothesis foreach_arg_eq : ∀ fuel st func arg,
    tb_foreach_arg T fuel st func arg = tb_foreach T fuel st (func arg).
  Hypothesis Hom : ∃ others m, client_ok 4 om others m.

  Notation erest := (erest om).

  Definition TR (cs : option (tb_st T)) (s : tstate) : iProp :=
    pool 4 om (ts_free s) ∗ t ↦ Tape [] ∗
    match ts_tab s with
    | TabNone => ⌜cs = None⌝ ∗ hctl (ts_live s)
    | TabEs es => ∃ st es', ⌜cs = Some st⌝ ∗ ⌜en <$> es' = es⌝ ∗ tabR st es' (ts_live s) ∗
                    [∗ list] e ∈ es', erest e
    | TabFreed => ∃ st int, ⌜cs = Some st⌝ ∗ ⌜int ##ₘ ts_live s⌝ ∗ shell st int ∗ hctl (int ∪ ts_live s)
    end.

  Lemma om_small : Z.of_nat (size om) < 2 ^ 59.
  Proof.
    destruct Hom as (others & m & Hok). pose proof (client_size_words 4 _ _ _ ltac:(lia) Hok).
    change (2 ^ 61) with (4 * 2 ^ 59) in H. lia.
  Qed.

  Lemma fnodes_size ps : ([∗ list] p ∈ ps, fnode 4 p ∗ rest 4 om p) ⊢ ⌜(length ps ≤ size om)%nat ∧ NoDup ps⌝.
  Proof.
    iIntros "H".
    iAssert ⌜NoDup ps⌝%I as %Hnd.
    { iInduction ps as [|p ps] "IH"; [iPureIntro; constructor|]. iDestruct "H" as "[[Hp _] H]".
      iAssert ⌜p ∉ ps⌝%I as %Hni.
      { iIntros (Hin). apply elem_of_list_lookup in Hin as [i Hi].
        iDestruct (big_sepL_lookup with "H") as "[Hp' _]"; first done.
        iDestruct (fnode_excl with "Hp Hp'") as %?; [lia|done]. }
      iDestruct ("IH" with "H") as %?. iPureIntro. by constructor. }
    iSplit; [|done].
    iAssert ⌜∀ p, p ∈ ps → p ∈ dom om⌝%I as %Hin.
    { iIntros (p [i Hi]%elem_of_list_lookup).
      iDestruct (big_sepL_lookup with "H") as "[_ Hr]"; first done.
      iDestruct (rest_om with "Hr") as %Hs. by rewrite elem_of_dom. }
    iPureIntro. rewrite -size_dom. change (size (dom om)) with (length (elements (dom om))).
    apply submseteq_length, NoDup_submseteq; [done|]. intros p Hp. apply elem_of_elements. auto.
  Qed.

  Lemma nodes_fnodes es :
    ([∗ list] e ∈ es, ∃ nx pv, nodeP e nx pv) -∗ ([∗ list] e ∈ es, erest e) -∗
    [∗ list] p ∈ e_p <$> es, fnode 4 p ∗ rest 4 om p.
  Proof.
    iIntros "H1 H2". rewrite big_sepL_fmap. iDestruct (big_sepL_sep_2 with "H1 H2") as "H".
    iApply (big_sepL_impl with "H"). iIntros "!>" (i e _) "[(%nx & %pv & Hn) [Hr %Hi]]". iFrame "Hr".
    iApply fnode4. by iApply (nodeP_freenode with "Hn").
  Qed.

  Lemma tabR_size st es cl :
    tabR st es cl -∗ ([∗ list] e ∈ es, erest e) -∗ ⌜(length es ≤ size om)%nat ∧ NoDup (e_p <$> es)⌝.
  Proof.
    iIntros "(%int & _ & Hr & _) He". rewrite rep_nodes. iDestruct "Hr" as "[Hn _]".
    iDestruct (nodes_fnodes with "Hn He") as "H". iDestruct (fnodes_size with "H") as %[Hl Hnd].
    rewrite fmap_length in Hl. done.
  Qed.

  Lemma tabR_size_S st es cl p :
    tabR st es cl -∗ ([∗ list] e ∈ es, erest e) -∗ fnode 4 p -∗ rest 4 om p -∗ ⌜(S (length es) ≤ size om)%nat⌝.
  Proof.
    iIntros "(%int & _ & Hr & _) He Hp Hrp". rewrite rep_nodes. iDestruct "Hr" as "[Hn _]".
    iDestruct (nodes_fnodes with "Hn He") as "H".
    iDestruct (fnodes_size (p :: (e_p <$> es)) with "[H Hp Hrp]") as %[Hl Hnd]; [simpl; iFrame|].
    simpl in Hl. rewrite fmap_length in Hl. done.
  Qed.

  Lemma tabR_inv st es cl : tabR st es cl -∗
    ⌜Forall hashed es ∧ tb_count T st = Z.of_nat (length es) ∧ inv st (length es)⌝.
  Proof. iIntros "(%int & _ & Hr & _)". by rewrite rep_inv. Qed.

  Lemma fnodes_give ps qs : ([∗ list] p ∈ ps, fnode 4 p ∗ rest 4 om p) -∗ pool 4 om qs -∗
    pool 4 om (qs ∪ list_to_set ps).
  Proof.
    iIntros "H Hp". iInduction ps as [|p ps] "IH" forall (qs); simpl; [by rewrite right_id_L|].
    iDestruct "H" as "[[Hf Hr] H]". rewrite assoc_L. iApply ("IH" with "H"). iApply (pool_give with "Hf Hr Hp"). lia.
  Qed.

  Lemma free_all_perm ds ds' live : ds ≡ₚ ds' → free_all ds live = free_all ds' live.
  Proof.
    rewrite /free_all. induction 1; simpl; [done|congruence|apply delete_commute|congruence].
  Qed.
  Lemma free_all_subseteq ds (cl : gmap Z region) : free_all ds cl ⊆ cl.
  Proof.
    rewrite /free_all. induction ds as [|d ds IH]; simpl; [done|]. etrans; [apply delete_subseteq|done].
  Qed.

  Lemma wp_t_foreach_free fuel st es cl Φ :
    fits fuel (length es) → Forall (λ e, freeable cl om (e_p e) (e_d e)) es →
    tabR st es cl -∗ ([∗ list] e ∈ es, erest e) -∗ t ↦ Tape [] -∗
    (∀ es' int, ⌜es' ≡ₚ es⌝ -∗ ⌜int ##ₘ free_all (e_d <$> es') cl⌝ -∗ shell st int -∗
       hctl (int ∪ free_all (e_d <$> es') cl) -∗ t ↦ Tape (e_d <$> es') -∗ Φ tt) -∗
    wp (tb_foreach T fuel st (visit_free t)) Φ.
  Proof.
    iIntros (Hf HF) "HR He Ht HΦ".
    iDestruct (tabR_size with "HR He") as %[_ Hnd].
    iDestruct "HR" as (int Hdisj) "[HR Hc]".
    pose (I := (λ dn : list elem, t ↦ Tape (e_d <$> dn) ∗ hctl (int ∪ free_all (e_d <$> dn) cl) ∗
      ∃ more, ⌜dn ++ more ≡ₚ es⌝ ∗ [∗ list] e ∈ more, erest e)%I).
    iApply (wp_t_foreach fuel st es int _ I with "[] HR [Ht Hc He]"); [done| | |].
    - iIntros "!>" (dn e more nx pv Hp) "(Ht & Hc & (%more' & %Hp' & Hr)) Hn".
      assert (Hm : more' ≡ₚ e :: more).
      { apply (Permutation_app_inv_l dn). by rewrite Hp Hp'. }
      rewrite Hm /=. iDestruct "Hr" as "[[Hr %Hi] Hrs]".
      assert (HF' : Forall (λ e, freeable cl om (e_p e) (e_d e)) (dn ++ e :: more)) by by rewrite Hp.
      apply Forall_app in HF' as [HF0 HF1].
      inversion HF1 as [|?? (n & Hpn & Hd0 & Hlive) HF2]; subst. simpl in *.
      iApply (wp_visit_free_gen 4 om t _ _ (e_p e) (e_d e) n with "[Hn] Hr Ht Hc"); [done| |done| | |].
      + destruct Hom as (oth & m & (Hn & _)). apply (Hn _ _ Hpn).
      + assert (Hnin : e_d e ∉ e_d <$> dn).
        { intros (e' & He' & Hin)%elem_of_list_fmap.
          rewrite Forall_forall in HF0. destruct (HF0 e') as (n' & Hpn' & _); [done|].
          rewrite -He' in Hpn'. destruct Hom as (oth & m & Hok).
          pose proof (client_base_inj 4 _ _ _ _ _ _ _ _ ltac:(lia) Hok Hpn Hpn') as Heq.
          assert (Hnd' : NoDup (e_p <$> (dn ++ e :: more))) by by rewrite Hp.
          rewrite fmap_app in Hnd'. apply NoDup_app in Hnd' as (_ & Hnd' & _).
          apply (Hnd' (e_p e')); [by apply elem_of_list_fmap_1|]. rewrite -Heq. csimpl. by left. }
        rewrite lookup_union_r; last first.
        { eapply map_disjoint_Some_r; [exact Hdisj|exact Hlive]. }
        clear -Hlive Hnin. induction dn as [|e' dn IH]; [done|]. csimpl in *.
        rewrite lookup_delete_ne; [|set_solver]. apply IH. set_solver.
      + iApply fnode4. by iApply (nodeP_freenode with "Hn").
      + iIntros "Ht Hc". rewrite /I fmap_app /=. iFrame "Ht". iSplitL "Hc".
        * rewrite delete_union (delete_notin int); last first.
          { eapply map_disjoint_Some_r; [exact Hdisj|exact Hlive]. }
          rewrite (free_all_perm (_ ++ [_]) (e_d e :: (e_d <$> dn))); [done|]. by rewrite Permutation_app_comm.
        * iExists more. iFrame "Hrs". iPureIntro. rewrite -app_assoc. done.
    - rewrite /I /=. iFrame "Ht Hc". iExists es. iFrame. done.
    - iIntros (es' Hp) "Hs (Ht & Hc & _)". iApply ("HΦ" with "[//] [] Hs Hc Ht").
      iPureIntro. eapply map_disjoint_weaken_r; [exact Hdisj|]. apply free_all_subseteq.
  Qed.

  Lemma ereads_en K f g arg h es : K ⊆ memG_frame →
    (∀ e, e ∈ en <$> es → en_h e = h → reads K f g arg (en_d e)) → ereads f g arg h es.
  Proof.
    intros HK Hrd e He Hh. eapply reads_mono; [done|]. apply (Hrd (en e)); [|done]. by apply elem_of_list_fmap_1.
  Qed.

  Lemma wp_tstep fuel K cs s o Φ :
    (size om ≤ fuel)%nat → K ⊆ memG_frame →
    tpre om K s o →
    TR cs s -∗ (∀ cs' a s', ⌜tpost s o a s'⌝ -∗ TR cs' s' -∗ Φ (cs', a)) -∗
    wp (tstep T fuel t cs o) Φ.
  Proof.
    iIntros (Hfuel HK Hpre) "(Hpool & Ht & HT) HΦ". pose proof om_small as Hsm.
    destruct s as [fr tb live]. simpl in *.
    destruct o; simpl in Hpre.
    - (* init *)
      destruct Hpre as [-> Hn]. iDestruct "HT" as "[-> Hc]". rewrite /tstep. wp_bind.
      iApply (wp_t_init with "Hc"); [done|]. iIntros (st) "HR". wp_ret.
      iApply "HΦ". { iPureIntro. done. }
      rewrite /TR /=. iFrame "Hpool Ht". iExists st, []. iSplit; [done|]. iSplit; [done|]. simpl. by iFrame "HR".
    - (* insert *)
      destruct Hpre as (Hp & (es & ->) & Hw). iDestruct "HT" as (st es' -> <-) "[HR He]".
      iDestruct (pool_take with "Hpool") as "(Hn & Hr & Hpool)"; first done.
      iDestruct (tabR_size_S with "HR He Hn Hr") as %Hsz. rewrite fnode4.
      rewrite /tstep. wp_bind. iApply (wp_t_insert with "HR Hn"); [split; lia|done|].
      iIntros (st') "HR". wp_ret. iApply "HΦ". { iPureIntro. eexists. split; [done|]. split; [done|]. reflexivity. }
      rewrite /TR /=. iFrame "Hpool Ht". iExists st', _. iSplit; [done|]. iFrame "HR".
      iSplit; [by rewrite fmap_app|]. rewrite big_sepL_app /=. iFrame. iPureIntro. right. by eexists.
    - (* remove *)
      destruct Hpre as ((es & -> & Hrd) & Hw). iDestruct "HT" as (st es' -> <-) "[HR He]".
      iDestruct (tabR_size with "HR He") as %[Hsz _].
      rewrite /tstep. wp_bind. iApply (wp_t_remove _ _ _ f g with "HR Ht"); [split; lia|done|by eapply ereads_en|]. iSplit.
      + iIntros (st' es1 e es2 nx pv -> Hacc Hno) "HR Hn Ht". wp_bind.
        iApply (wp_tape_take with "Ht"). iIntros "Ht". wp_ret. simpl.
        rewrite big_sepL_app /=. iDestruct "He" as "(He1 & He & He2)".
        iDestruct (elem_give with "Hn He Hpool") as "Hpool".
        iApply "HΦ".
        { iPureIntro. left. exists (en <$> es1), (en e), (en <$> es2). split; [by rewrite fmap_app|].
          split; [done|]. split; [by apply en_acc|]. split; [|done]. simpl.
          f_equal. rewrite -en_calls fmap_app //. }
        rewrite /TR /=. iFrame "Hpool Ht". iExists st', _. iSplit; [done|]. iFrame "HR".
        iSplit; [by rewrite fmap_app|]. rewrite big_sepL_app /=. iFrame.
      + iIntros (Hno) "HR Ht". wp_bind. iApply (wp_tape_take with "Ht"). iIntros "Ht". wp_ret. simpl.
        iApply "HΦ".
        { iPureIntro. right. eexists. split; [done|]. split; [by apply en_acc|]. split; [|done].
          by rewrite en_calls. }
        rewrite /TR /=. iFrame "Hpool Ht". iExists st, _. iSplit; [done|]. iFrame "HR He". done.
    - (* remove_existing *)
      destruct Hpre as (es & -> & Hp). iDestruct "HT" as (st es' -> <-) "[HR He]".
      iDestruct (tabR_size with "HR He") as %[Hsz _]. iDestruct (tabR_inv with "HR") as %[Hhash _].
      rewrite en_p_fmap in Hp. apply elem_of_list_fmap in Hp as (e & -> & (es1 & es2 & ->)%elem_of_list_split).
      rewrite /tstep. wp_bind. iApply (wp_t_remove_existing with "HR"); [split; lia|].
      iIntros (st' nx pv) "HR Hn". wp_ret. rewrite big_sepL_app /=. iDestruct "He" as "(He1 & He & He2)".
      iDestruct (elem_give with "Hn He Hpool") as "Hpool".
      iApply "HΦ".
      { iPureIntro. exists (en <$> es1), (e_d e), (e_h e), (en <$> es2). split; [by rewrite fmap_app|]. done. }
      rewrite /TR /=. iFrame "Hpool Ht". iExists st', _. iSplit; [done|]. iFrame "HR".
      iSplit; [by rewrite fmap_app|]. rewrite big_sepL_app /=. iFrame.
    - (* search *)
      destruct Hpre as ((es & -> & Hrd) & Hw). iDestruct "HT" as (st es' -> <-) "[HR He]".
      iDestruct (tabR_size with "HR He") as %[Hsz _]. iDestruct "HR" as (int Hdisj) "[HR Hc]".
      rewrite /tstep. wp_bind. iApply (wp_t_search _ _ _ f g with "HR Ht"); [split; lia|done|by eapply ereads_en|]. iSplit.
      + iIntros (es1 e es2 -> Hacc Hno) "HR Ht". wp_bind.
        iApply (wp_tape_take with "Ht"). iIntros "Ht". wp_ret. simpl.
        iApply "HΦ".
        { iPureIntro. split; [done|]. left. exists (en <$> es1), (en e), (en <$> es2). split; [by rewrite fmap_app|].
          split; [done|]. split; [by apply en_acc|]. simpl.
          f_equal. rewrite -en_calls fmap_app //. }
        rewrite /TR /=. iFrame "Hpool Ht". iExists st, _. iSplit; [done|]. iSplit; [done|]. iFrame "He". iExists int. by iFrame.
      + iIntros (Hno) "HR Ht". wp_bind. iApply (wp_tape_take with "Ht"). iIntros "Ht". wp_ret. simpl.
        iApply "HΦ".
        { iPureIntro. split; [done|]. right. eexists. split; [done|]. split; [by apply en_acc|].
          by rewrite en_calls. }
        rewrite /TR /=. iFrame "Hpool Ht". iExists st, _. iSplit; [done|]. iSplit; [done|]. iFrame "He". iExists int. by iFrame.
    - (* bucket *)
      destruct Hpre as ((es & ->) & Hw). iDestruct "HT" as (st es' -> <-) "[HR He]".
      iDestruct (tabR_size with "HR He") as %[Hsz _]. iDestruct "HR" as (int Hdisj) "[HR Hc]".
      rewrite /tstep. wp_bind. iApply (wp_t_bucket with "HR"); [done|].
      iIntros (b pv Hsub Hfh) "Hd HR". wp_bind. iApply (wp_list_walk with "Hd").
      { apply submseteq_length in Hsub. lia. }
      iIntros "Hd". wp_ret. iDestruct ("HR" with "Hd") as "HR".
      iApply "HΦ".
      { iPureIntro. exists (en <$> es'), (en <$> b). split; [done|]. split; [by rewrite -list_fmap_compose|].
        split; [by apply fmap_submseteq|]. split; [|done]. by rewrite !en_filter Hfh. }
      rewrite /TR /=. iFrame "Hpool Ht". iExists st, _. iSplit; [done|]. iSplit; [done|]. iFrame "He". iExists int. by iFrame.
    - (* count *)
      destruct Hpre as (es & ->). iDestruct "HT" as (st es' -> <-) "[HR He]".
      iDestruct (tabR_inv with "HR") as %(_ & Hcount & _). rewrite /tstep. wp_ret.
      iApply "HΦ". { iPureIntro. eexists. split; [done|]. rewrite Hcount fmap_length //. }
      rewrite /TR /=. iFrame "Hpool Ht". iExists st, _. iSplit; [done|]. iSplit; [done|]. iFrame.
    - (* foreach *)
      destruct Hpre as (es & ->). iDestruct "HT" as (st es' -> <-) "[HR He]".
      iDestruct (tabR_size with "HR He") as %[Hsz _]. iDestruct "HR" as (int Hdisj) "[HR Hc]".
      rewrite /tstep. wp_bind. pose (I := (λ dn : list elem, t ↦ Tape (e_d <$> dn))%I).
      iApply (wp_t_foreach_ro fuel st es' int _ I with "[] HR Ht"); [split; lia| |].
      { iIntros "!>" (dn x) "Ht". iApply (wp_visit with "Ht"). rewrite /I fmap_app. by iIntros "$". }
      iIntros (es2 Hp) "HR Ht". wp_bind. iApply (wp_tape_take with "Ht"). iIntros "Ht". wp_ret.
      iApply "HΦ".
      { iPureIntro. exists (en <$> es'), (en <$> es2). split; [done|]. split; [by rewrite Hp|]. by rewrite en_d_fmap. }
      rewrite /TR /=. iFrame "Hpool Ht". iExists st, _. iSplit; [done|]. iSplit; [done|]. iFrame "He". iExists int. by iFrame.
    - (* foreach_arg *)
      destruct Hpre as (es & ->). iDestruct "HT" as (st es' -> <-) "[HR He]".
      iDestruct (tabR_size with "HR He") as %[Hsz _]. iDestruct "HR" as (int Hdisj) "[HR Hc]".
      rewrite /tstep foreach_arg_eq. wp_bind.
      pose (I := (λ dn : list elem, t ↦ Tape (x ← (en <$> dn : list ent); [arg; en_d x]))%I).
      iApply (wp_t_foreach_ro fuel st es' int _ I with "[] HR Ht"); [split; lia| |].
      { iIntros "!>" (dn x) "Ht". iApply (wp_visit_arg with "Ht"). rewrite /I fmap_app bind_app. by iIntros "$". }
      iIntros (es2 Hp) "HR Ht". wp_bind. iApply (wp_tape_take with "Ht"). iIntros "Ht". wp_ret.
      iApply "HΦ".
      { iPureIntro. exists (en <$> es'), (en <$> es2). split; [done|]. split; [by rewrite Hp|]. done. }
      rewrite /TR /=. iFrame "Hpool Ht". iExists st, _. iSplit; [done|]. iSplit; [done|]. iFrame "He". iExists int. by iFrame.
    - (* foreach with free *)
      destruct Hpre as (es & -> & HF). iDestruct "HT" as (st es' -> <-) "[HR He]".
      iDestruct (tabR_size with "HR He") as %[Hsz _].
      assert (HF' : Forall (λ e, freeable live om (e_p e) (e_d e)) es') by exact (proj1 (Forall_fmap en _ es') HF).
      rewrite /tstep. wp_bind. iApply (wp_t_foreach_free with "HR He Ht"); [split; lia|exact HF'|].
      iIntros (es2 int Hp Hdisj) "Hs Hc Ht". wp_bind. iApply (wp_tape_take with "Ht"). iIntros "Ht". wp_ret.
      iApply "HΦ".
      { iPureIntro. exists (en <$> es'), (en <$> es2). split; [done|]. split; [by rewrite Hp|]. by rewrite en_d_fmap. }
      rewrite /TR /=. iFrame "Hpool Ht". iExists st, int. iFrame. done.
    - (* done *)
      destruct tb as [|es|]; [done| |].
      + iDestruct "HT" as (st es' -> <-) "[HR He]". iDestruct "HR" as (int Hdisj) "[HR Hc]".
        rewrite rep_nodes. iDestruct "HR" as "[Hn Hs]". rewrite /tstep. wp_bind.
        iApply (wp_t_done with "Hs Hc"); [done|]. iIntros "Hc". wp_ret.
        iDestruct (nodes_fnodes with "Hn He") as "Hn". iDestruct (fnodes_give with "Hn Hpool") as "Hpool".
        iApply "HΦ". { iPureIntro. done. } rewrite /TR /= en_p_fmap. by iFrame.
      + iDestruct "HT" as (st int -> Hdisj) "[Hs Hc]". rewrite /tstep. wp_bind.
        iApply (wp_t_done with "Hs Hc"); [done|]. iIntros "Hc". wp_ret.
        iApply "HΦ". { iPureIntro. done. } rewrite /TR /= right_id_L. by iFrame.
  Qed.
End table_hist.

(** What each table has to provide. *)
Record table_proof (T : table) (inv : tb_st T → nat → Prop) `{!memG} (t : Z) := TableProof {
  tp_rep : tb_st T → list elem → gmap Z region → iProp;
  tp_shell : tb_st T → gmap Z region → iProp;
  tp_nodes : ∀ st es int,
    tp_rep st es int ⊢ ([∗ list] e ∈ es, ∃ nx pv, nodeP e nx pv) ∗ tp_shell st int;
  tp_inv : ∀ st es int,
    tp_rep st es int ⊢ ⌜Forall hashed es ∧ tb_count T st = Z.of_nat (length es) ∧ inv st (length es)⌝;
  tp_init : ∀ n cl Φ, 0 <= n <= 2 ^ 60 →
    hctl cl -∗ (∀ st, tabR T tp_rep st [] cl -∗ Φ st) -∗ wp (tb_init T n) Φ;
  tp_done : ∀ st int cl Φ, int ##ₘ cl →
    tp_shell st int -∗ hctl (int ∪ cl) -∗ (hctl cl -∗ Φ tt) -∗ wp (tb_done T st) Φ;
  tp_insert : ∀ fuel st es p d h cl Φ, fits fuel (S (length es)) → word h →
    tabR T tp_rep st es cl -∗ freenode p -∗ (∀ st', tabR T tp_rep st' (es ++ [El p d (W h)]) cl -∗ Φ st') -∗
    wp (tb_insert T fuel st p d h) Φ;
  tp_remove : ∀ fuel st es ff f arg h cl Φ, fits fuel (length es) → word h → ereads ff f arg h es →
    tabR T tp_rep st es cl -∗ t ↦ Tape [] -∗
    ((∀ st' es1 e es2 nx pv, ⌜es = es1 ++ e :: es2⌝ -∗ ⌜eacc f arg h e⌝ -∗
        ⌜Forall (λ e, ¬ eacc f arg h e) es1⌝ -∗ tabR T tp_rep st' (es1 ++ es2) cl -∗ nodeP e nx pv -∗
        t ↦ Tape (ecalls arg h (es1 ++ [e])) -∗ Φ (st', e_d e)) ∧
     (⌜Forall (λ e, ¬ eacc f arg h e) es⌝ -∗ tabR T tp_rep st es cl -∗ t ↦ Tape (ecalls arg h es) -∗ Φ (st, 0))) -∗
    wp (tb_remove T fuel st (tape_cmp t (λ _, ff)) arg h) Φ;
  tp_remove_existing : ∀ fuel st es1 e es2 cl Φ, fits fuel (length (es1 ++ e :: es2)) →
    tabR T tp_rep st (es1 ++ e :: es2) cl -∗
    (∀ st' nx pv, tabR T tp_rep st' (es1 ++ es2) cl -∗ nodeP e nx pv -∗ Φ (st', e_d e)) -∗
    wp (tb_remove_existing T fuel st (e_p e)) Φ;
  tp_search : ∀ fuel st es ff f arg h int Φ, fits fuel (length es) → word h → ereads ff f arg h es →
    tp_rep st es int -∗ t ↦ Tape [] -∗
    ((∀ es1 e es2, ⌜es = es1 ++ e :: es2⌝ -∗ ⌜eacc f arg h e⌝ -∗
        ⌜Forall (λ e, ¬ eacc f arg h e) es1⌝ -∗ tp_rep st es int -∗
        t ↦ Tape (ecalls arg h (es1 ++ [e])) -∗ Φ (e_d e)) ∧
     (⌜Forall (λ e, ¬ eacc f arg h e) es⌝ -∗ tp_rep st es int -∗ t ↦ Tape (ecalls arg h es) -∗ Φ 0)) -∗
    wp (tb_search T fuel st (tape_cmp t (λ _, ff)) arg h) Φ;
  tp_bucket : ∀ st es h int Φ, word h →
    tp_rep st es int -∗
    (∀ b pv, ⌜b ⊆+ es⌝ -∗ ⌜fh h b = fh h es⌝ -∗ dseg b pv 0 -∗ (dseg b pv 0 -∗ tp_rep st es int) -∗ Φ (hd_p b 0)) -∗
    wp (tb_bucket T st h) Φ;
  tp_foreach_ro : ∀ fuel st es int func (I : list elem → iProp) Φ, fits fuel (length es) →
    □ (∀ dn x, I dn -∗ wp (func (e_d x)) (λ _, I (dn ++ [x]))) -∗
    tp_rep st es int -∗ I [] -∗ (∀ es', ⌜es' ≡ₚ es⌝ -∗ tp_rep st es int -∗ I es' -∗ Φ tt) -∗
    wp (tb_foreach T fuel st func) Φ;
  tp_foreach : ∀ fuel st es int func (I : list elem → iProp) Φ, fits fuel (length es) →
    □ (∀ dn x more nx pv, ⌜dn ++ x :: more ≡ₚ es⌝ -∗ I dn -∗ nodeP x nx pv -∗ wp (func (e_d x)) (λ _, I (dn ++ [x]))) -∗
    tp_rep st es int -∗ I [] -∗ (∀ es', ⌜es' ≡ₚ es⌝ -∗ tp_shell st int -∗ I es' -∗ Φ tt) -∗
    wp (tb_foreach T fuel st func) Φ;
  tp_foreach_arg : ∀ fuel st func arg, tb_foreach_arg T fuel st func arg = tb_foreach T fuel st (func arg);
  tp_visits : ∀ st es int m, tp_rep st es int -∗ memI m -∗ ⌜visits T st (en <$> es) int m⌝;
  tp_chains : ∀ st es int m, tp_rep st es int -∗ memI m -∗ ⌜chains T st (en <$> es) m⌝;
  tp_blocks : ∀ st int, tp_shell st int ⊢ blocks_own int;
  tp_memory : ∀ st es int,
    tp_rep st es int ⊢ ⌜tb_memory_usage T st = wrap (heap_bytes int + 32 * Z.of_nat (length es))⌝ }.

Lemma table_history T inv om K t live m fuel c :
  (∀ `{!memG}, memG_env → table_proof T inv t) →
  table_start om K t live m → (size om ≤ fuel)%nat →
  allowed (tpre om K) tpost (tstate0 om live) c →
  safe (run (tstep T fuel t) None c m) (λ r m',
    table_end T inv om live r.1 r.2 m' ∧ unchanged_outside (HCTL :: t :: objs_cells om) m m').
Proof.
  intros Hproof (Hok & Ht & (h & Hh & <-) & HK) Hf Ha.
  pose proof (client_adequacy True (run (tstep T fuel t) None c) 4 om [HCTL; t] m
    (λ r m', table_end T inv om (hc_live h) r.1 r.2 m') Hok) as Had.
  assert (Hgoal : match run (tstep T fuel t) None c m with
    | Ok v m' => table_end T inv om (hc_live h) v.1 v.2 m' ∧ unchanged_outside ([HCTL; t] ++ objs_cells om) m m'
    | Env _ => True | _ => False end); [|exact Hgoal].
  apply Had.
  { intros a Ha'. set_unfold in Ha'. destruct Ha' as [->|[->|[]]]; eauto. }
  clear Had. intros HG HE HF.
  assert (Henv : memG_env) by (rewrite HE; done).
  destruct (Hproof HG Henv) as [rep shell H1 H2 H3 H4 H5 H6 H7 H8 H9 H10 H11 H12 Hvis Hch Hblk Hmem].
  iIntros "(Hc & Htt & _) Hpool".
  iApply (wp_run _ _ _ (TR om t T rep shell) with "[Hc Htt Hpool]").
  - intros. iIntros "HR HΦ".
    iApply (wp_tstep om t T rep shell inv H1 H2 H3 H4 H5 H6 H7 H8 H9 H10 H11 H12 with "HR HΦ"); [eauto|done| |done].
    rewrite HF. by apply separate_frame.
  - exact Ha.
  - rewrite /TR /=. iFrame "Hpool". iSplitL "Htt"; [|iSplit; [done|]].
    + iDestruct "Htt" as (c0 Hc0) "Htt". by simplify_eq.
    + iDestruct "Hc" as (c0 Hc0) "Hc". simplify_eq. iExists (hc_oracle h), (hc_next h). by destruct h.
  - iIntros (cs tr s' Hcor) "(_ & _ & HT)". iIntros (m') "Hm". rewrite /table_end /=.
    destruct s' as [fr tb lv]. simpl. destruct tb as [|es|].
    + iDestruct "HT" as "[-> (%o & %n & Hc)]". iDestruct (memI_lookup with "Hm Hc") as %Hl.
      iPureIntro. eexists _, ∅. split; [exact Hcor|]. simpl. split; [|split; [apply map_disjoint_empty_l|done]].
      eexists. split; [done|]. simpl. by rewrite left_id_L.
    + iDestruct "HT" as (st es' -> <-) "[(%int & %Hdisj & HR & (%o & %n & Hc)) He]".
      iDestruct (memI_lookup with "Hm Hc") as %Hl. iDestruct (Hvis with "HR Hm") as %Hv.
      iDestruct (Hch with "HR Hm") as %Hchs.
      iDestruct (H2 with "HR") as %(_ & _ & Hinv). iDestruct (Hmem with "HR") as %Hu.
      rewrite H1. iDestruct "HR" as "[Hn Hs]". rewrite Hblk.
      iDestruct (nodes_fnodes with "Hn He") as "Hn".
      iAssert ⌜∀ p, p ∈ e_p <$> es' → is_Some (om !! p)⌝%I as %Hps.
      { iIntros (p [i Hi]%elem_of_list_lookup).
        iDestruct (big_sepL_lookup with "Hn") as "[_ Hr]"; first done. iApply (rest_om with "Hr"). }
      iDestruct (blocks_nodes_fit with "Hs [Hn]") as %Hfit; [exact Hok|exact Hps|by rewrite big_sepL_sep; iDestruct "Hn" as "[$ _]"|].
      rewrite fmap_length in Hfit. iPureIntro. eexists _, int. split; [exact Hcor|]. simpl. split; [by eexists|]. split; [done|].
      exists st. rewrite fmap_length. split; [done|]. split; [done|]. split; [done|]. split; [|done].
      rewrite Hu /wrap Z.mod_small; [lia|]. pose proof (heap_bytes_nonneg int). lia.
    + iDestruct "HT" as (st int -> Hdisj) "[Hs (%o & %n & Hc)]".
      iDestruct (memI_lookup with "Hm Hc") as %Hl.
      iPureIntro. eexists _, int. split; [exact Hcor|]. simpl. split; [by eexists|]. done.
Qed.
