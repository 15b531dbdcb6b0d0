(** * Proofs of the list history theorem and of the single-list theorems. *)
From Verif Require Export ListSpec ClientProof SortProof.
Global Open Scope Z_scope.
Local Typeclasses Transparent nodeP freenode freenode_i lst.

Definition pd (e : elem) : Z * Z := (e_p e, e_d e).

Lemma seq_head_pd es : seq_head (pd <$> es) = hd_p es 0.
Proof. by destruct es. Qed.
Lemma seq_last_pd es : seq_last (pd <$> es) = last_p 0 es.
Proof.
  rewrite /seq_last fmap_last. destruct es as [|e es] using rev_ind; [done|].
  rewrite last_snoc last_p_snoc //.
Qed.
Lemma pd_1 es : (pd <$> es).*1 = e_p <$> es.
Proof. by rewrite -list_fmap_compose. Qed.
Lemma pd_2 es : (pd <$> es).*2 = e_d <$> es.
Proof. by rewrite -list_fmap_compose. Qed.

Definition flat (log : clog) : list Z := log ≫= λ ab, [ab.1; ab.2].
Lemma flat_snoc log a b : flat (log ++ [(a, b)]) = flat log ++ [a; b].
Proof. by rewrite /flat bind_app. Qed.
Lemma flat_length log : length (flat log) = (2 * length log)%nat.
Proof. induction log; simpl; [done|]. rewrite IHlog. lia. Qed.

Lemma sorted_by_pd c es : StronglySorted (λ x y, c (e_d x) (e_d y) ≤ 0) es → sorted_by c (pd <$> es).
Proof.
  rewrite /sorted_by. induction 1 as [|x xs H1 IH H2]; csimpl; constructor; [done|].
  apply Forall_fmap. eapply Forall_impl; [exact H2|]. done.
Qed.
Lemma stable_by_pd c es r : stab c es r → stable_by c (pd <$> es) (pd <$> r).
Proof.
  intros H z. specialize (H z).
  assert (Hf : ∀ l : list elem, filter (λ x : Z * Z, c x.2 z = 0) (pd <$> l) = pd <$> filter (λ x, c (e_d x) z = 0) l).
  { intros l. induction l as [|x l IH]; [done|]. csimpl. rewrite !filter_cons /=. 
    destruct (decide (c (e_d x) z = 0)); csimpl; by rewrite IH. }
  by rewrite !Hf H.
Qed.

Section list_hist.
  Context `{!memG}.
  Variable om : objmap.
  Variable t : Z.

  Definition erest (e : elem) : iProp := rest 4 om (e_p e) ∗ ⌜wordcell (e_i e)⌝.

  Definition listR (l : Z) (ox : option (list (Z * Z))) : iProp :=
    match ox with
    | None => ∃ c, ⌜wordcell c⌝ ∗ l ↦ c
    | Some xs => ∃ es, ⌜pd <$> es = xs⌝ ∗ lst l es ∗ [∗ list] e ∈ es, erest e
    end.

  Definition LR (_ : unit) (s : lstate) : iProp :=
    pool 4 om (ls_free s) ∗ ([∗ map] l ↦ ox ∈ ls_lists s, listR l ox) ∗
    hctl (ls_live s) ∗ t ↦ Tape [].

  Lemma erests_size es l : lst l es -∗ ([∗ list] e ∈ es, erest e) -∗ ⌜(length es ≤ size om)%nat⌝.
  Proof.
    iIntros "[_ H] Hr". iDestruct (dseg_nodup with "H") as %Hnd.
    iAssert ⌜∀ p, p ∈ e_p <$> es → p ∈ dom om⌝%I as %Hin.
    { iIntros (p (e & -> & He)%elem_of_list_fmap). apply elem_of_list_lookup in He as [i Hi].
      iDestruct (big_sepL_lookup with "Hr") as "[Hr _]"; first done.
      iDestruct (rest_om with "Hr") as %Hs. by rewrite elem_of_dom. }
    iPureIntro. rewrite -(fmap_length e_p) -size_dom.
    change (size (dom om)) with (length (elements (dom om))).
    apply submseteq_length, NoDup_submseteq; [done|]. intros p Hp.
    apply elem_of_elements. auto.
  Qed.

  Lemma elem_give e nx pv ps : nodeP e nx pv -∗ erest e -∗ pool 4 om ps -∗ pool 4 om (ps ∪ {[e_p e]}).
  Proof.
    iIntros "Hn [Hr %Hi] Hp". iApply (pool_give with "[Hn] Hr Hp"); [lia|].
    iApply fnode4. by iApply (nodeP_freenode with "Hn").
  Qed.

  Lemma elems_give es pv nx ps :
    dseg es pv nx -∗ ([∗ list] e ∈ es, erest e) -∗ pool 4 om ps -∗
    pool 4 om (ps ∪ list_to_set (e_p <$> es)).
  Proof.
    iIntros "Hd Hr Hp". iInduction es as [|e es] "IH" forall (ps pv); csimpl.
    - by rewrite right_id_L.
    - rewrite dseg_cons. iDestruct "Hd" as "[Hn Hd]". iDestruct "Hr" as "[Hr Hrs]".
      rewrite assoc_L. iApply ("IH" with "Hd Hrs"). by iApply (elem_give with "Hn Hr").
  Qed.

  Lemma map_listR_acc s l ox : ls_lists s !! l = Some ox →
    ([∗ map] l ↦ ox ∈ ls_lists s, listR l ox) -∗
    listR l ox ∗ (∀ ox', listR l ox' -∗ [∗ map] l ↦ ox ∈ <[l := ox']> (ls_lists s), listR l ox).
  Proof.
    iIntros (Hl) "H". by iApply (big_sepM_insert_acc with "H").
  Qed.

  Hypothesis Hom : ∃ others m, client_ok 4 om others m.

  Lemma om_size : Z.of_nat (size om) < 2 ^ 61.
  Proof. destruct Hom as (others & m & Hok). eapply client_size; [|done]. lia. Qed.

  Lemma wp_list_foreach_free fuel l es live Φ :
    (size om ≤ fuel)%nat → Forall (λ x, freeable live om x.1 x.2) (pd <$> es) →
    lst l es -∗ ([∗ list] e ∈ es, erest e) -∗ hctl live -∗ t ↦ Tape [] -∗
    (l ↦ W (hd_p es 0) -∗ hctl (free_all (e_d <$> es) live) -∗ t ↦ Tape (e_d <$> es) -∗ Φ tt) -∗
    wp (list_foreach fuel l (visit_free t)) Φ.
  Proof.
    iIntros (Hf HF) "Hl Hr Hc Ht HΦ".
    iDestruct (erests_size with "Hl Hr") as %Hsz.
    iAssert ⌜NoDup (e_p <$> es)⌝%I as %Hnd.
    { iDestruct "Hl" as "[_ Hd]". iApply (dseg_nodup with "Hd"). }
    assert (Hfree : ∀ es', free_all (e_d <$> es') live = foldr delete live (e_d <$> es')) by done.
    iApply (wp_list_foreach fuel l _ (λ dn : list elem, t ↦ Tape (e_d <$> dn) ∗ hctl (free_all (e_d <$> dn) live) ∗
      [∗ list] e ∈ drop (length dn) es, erest e)%I with "[] Hl [Ht Hc Hr]"); [lia| | |].
    - iIntros "!>" (dn e more nx pv Heq) "(Ht & Hc & Hr) Hn".
      subst es. rewrite drop_app. iDestruct "Hr" as "[[Hr %Hi] Hrs]".
      rewrite fmap_app fmap_cons in HF. apply Forall_app in HF as [HF0 HF1].
      inversion HF1 as [|?? (n & Hp & Hd0 & Hlive) HF2]; subst. simpl in *.
      iApply (wp_visit_free_gen 4 om t _ _ (e_p e) (e_d e) n with "[Hn] Hr Ht Hc"); [done| |done| | |].
      + destruct Hom as (oth & m & (Hn & _)). apply (Hn _ _ Hp).
      + (* still live: the objects freed so far are different ones *)
        assert (Hnin : e_d e ∉ e_d <$> dn).
        { intros (e' & He' & Hin)%elem_of_list_fmap.
          rewrite Forall_forall in HF0. destruct (HF0 (pd e')) as (n' & Hp' & _).
          { by apply elem_of_list_fmap_1. }
          simpl in Hp'. rewrite -He' in Hp'. destruct Hom as (oth & m & Hok).
          pose proof (client_base_inj 4 _ _ _ _ _ _ _ _ ltac:(lia) Hok Hp Hp') as Heq.
          rewrite fmap_app in Hnd. apply NoDup_app in Hnd as (_ & Hnd & _).
          apply (Hnd (e_p e')); [by apply elem_of_list_fmap_1|]. rewrite -Heq. csimpl. by left. }
        clear -Hlive Hnin. induction dn as [|e' dn IH]; [done|]. csimpl in *.
        rewrite lookup_delete_ne; [|set_solver]. apply IH. set_solver.
      + iApply fnode4. by iApply (nodeP_freenode with "Hn").
      + iIntros "Ht Hc". rewrite fmap_app app_length /=. iFrame "Ht".

        iSplitL "Hc".
        * rewrite /free_all ?fmap_app foldr_app /=.
          assert (foldr delete (delete (e_d e) live) (e_d <$> dn) = delete (e_d e) (foldr delete live (e_d <$> dn))) as ->.
          { clear. induction dn as [|e' dn IH]; [done|]. csimpl. rewrite IH. apply delete_commute. }
          done.
        * replace (dn ++ e :: more) with ((dn ++ [e]) ++ more) by by rewrite -app_assoc.
          rewrite drop_app_alt; [done|]. by rewrite app_length.
    - iFrame. 
    - iIntros "Hl (Ht & Hc & _)". iApply ("HΦ" with "Hl Hc Ht").
  Qed.

  Lemma wp_sort_tape fuel l f g es Φ :
    (size om ≤ fuel)%nat →
    (∀ log a b, a ∈ e_d <$> es → b ∈ e_d <$> es → reads memG_frame (f log) (g log) a b) →
    lst l es -∗ ([∗ list] e ∈ es, erest e) -∗ t ↦ Tape [] -∗
    (∀ log r, ⌜msort (λ log, g (flat log)) [] es log r⌝ -∗ lst l r -∗ ([∗ list] e ∈ r, erest e) -∗
       t ↦ Tape (flat log) -∗ Φ tt) -∗
    wp (list_sort fuel l (tape_cmp t f)) Φ.
  Proof.
    iIntros (Hf Hrd) "Hl Hr Ht HΦ". iDestruct (erests_size with "Hl Hr") as %Hsz.
    pose proof om_size.
    iApply (wp_list_sort (λ log, g (flat log)) (λ log, t ↦ Tape (flat log))%I (.∈ e_d <$> es) fuel l _ es [] with "[] Hl [Ht]");
      [lia|lia| | |done|].
    - apply Forall_forall. intros e He. by apply elem_of_list_fmap_1.
    - iIntros "!>" (log a b Ψ) "%Ha %Hb Ht HΨ". iApply (wp_tape_cmp _ _ _ _ _ g with "Ht"); [by apply Hrd|]. iIntros "Ht".
      iApply "HΨ". by rewrite flat_snoc.
    - iIntros (log r Hs) "Hl Ht". iApply ("HΦ" with "[//] Hl [Hr] Ht").
      by rewrite (msort_perm _ _ _ _ _ Hs).
  Qed.

  Lemma sort_facts f es log r : msort (λ log, f (flat log)) [] es log r →
    (pd <$> r) ≡ₚ (pd <$> es) ∧
    (∀ c, f = (λ _, c) → total_preorder c → sorted_by c (pd <$> r) ∧ stable_by c (pd <$> es) (pd <$> r)) ∧
    Z.of_nat (length (flat log)) <=
        2 * (Z.of_nat (length (pd <$> es)) * Z.log2_up (Z.of_nat (length (pd <$> es))) + Z.of_nat (length (pd <$> es))).
  Proof.
    intros Hs. split; [by rewrite (msort_perm _ _ _ _ _ Hs)|split].
    - intros c -> Hc. destruct (msort_sorted c Hc _ _ _ _ Hs) as [H1 H2].
      split; [by apply sorted_by_pd|by apply stable_by_pd].
    - apply msort_count in Hs. rewrite flat_length fmap_length. simpl in Hs. lia.
  Qed.

  Lemma wp_lstep fuel K cs s o Φ :
    (size om ≤ fuel)%nat → K ⊆ memG_frame →
    lpre om K s o →
    LR cs s -∗ (∀ cs' a s', ⌜lpost s o a s'⌝ -∗ LR cs' s' -∗ Φ (cs', a)) -∗
    wp (lstep fuel t cs o) Φ.
  Proof.
    iIntros (Hf HK Hpre) "(Hpool & Hls & Hc & Ht) HΦ". pose proof om_size as Hom61.
    destruct o; simpl in Hpre; rewrite /lstep; wp_bind.
    - (* init *)
      destruct Hpre as [ox Hox]. iDestruct (map_listR_acc with "Hls") as "[Hl Hls]"; first done.
      wp_bind. destruct ox as [xs|]; simpl.
      + iDestruct "Hl" as (es <-) "[[Hl Hd] Hr]".
        iApply (wp_list_init with "Hl"); [auto|]. iIntros "Hl". wp_ret. wp_ret.
        iDestruct (elems_give with "Hd Hr Hpool") as "Hpool".
        iApply ("HΦ" $! tt). { iPureIntro. split; [done|]. eexists. split; [done|]. done. }
        rewrite /LR /= pd_1. iFrame "Hpool Hc Ht". iApply ("Hls" $! (Some [])). iExists []. iSplit; [done|]. simpl. by iFrame "Hl".
      + iDestruct "Hl" as (c Hwc) "Hl". iApply (wp_list_init with "Hl"); [done|]. iIntros "Hl". wp_ret. wp_ret.
        iApply ("HΦ" $! tt). { iPureIntro. split; [done|]. eexists. split; [done|]. done. }
        rewrite /LR /= right_id_L. iFrame "Hpool Hc Ht". iApply ("Hls" $! (Some [])). iExists []. iSplit; [done|]. simpl. by iFrame "Hl".
    - (* insert_head *)
      destruct Hpre as (Hp & xs & Hxs). iDestruct (map_listR_acc with "Hls") as "[Hl Hls]"; first done.
      iDestruct (pool_take with "Hpool") as "(Hn & Hr & Hpool)"; first done. rewrite fnode4 freenode_freenode_i.
      iDestruct "Hn" as (ci Hci) "Hn". iDestruct "Hl" as (es <-) "[Hl Hrs]".
      wp_bind. iApply (wp_list_insert_head with "Hn Hl"). iIntros "Hl". wp_ret. wp_ret.
      iApply ("HΦ" $! tt). { iPureIntro. eexists. split; [done|]. done. }
      rewrite /LR /=. iFrame "Hpool Hc Ht". iApply ("Hls" $! (Some _)). iExists (El p d ci :: es).
      iSplit; [done|]. iFrame "Hl". simpl. iFrame. done.
    - (* insert_tail *)
      destruct Hpre as (Hp & xs & Hxs). iDestruct (map_listR_acc with "Hls") as "[Hl Hls]"; first done.
      iDestruct (pool_take with "Hpool") as "(Hn & Hr & Hpool)"; first done. rewrite fnode4 freenode_freenode_i.
      iDestruct "Hn" as (ci Hci) "Hn". iDestruct "Hl" as (es <-) "[Hl Hrs]".
      wp_bind. iApply (wp_list_insert_tail with "Hn Hl"). iIntros "Hl". wp_ret. wp_ret.
      iApply ("HΦ" $! tt). { iPureIntro. eexists. split; [done|]. done. }
      rewrite /LR /=. iFrame "Hpool Hc Ht". iApply ("Hls" $! (Some _)). iExists (es ++ [El p d ci]).
      iSplit; [by rewrite fmap_app|]. iFrame "Hl". rewrite big_sepL_app /=. iFrame. done.
    - (* remove *)
      destruct Hpre as (xs & Hxs & Hp). iDestruct (map_listR_acc with "Hls") as "[Hl Hls]"; first done.
      iDestruct "Hl" as (es <-) "[Hl Hrs]". rewrite pd_1 in Hp.
      apply elem_of_list_fmap in Hp as (e & -> & (e1 & e2 & ->)%elem_of_list_split).
      wp_bind. iApply (wp_list_remove_existing with "Hl"). iIntros (nx pv) "Hl Hn". wp_ret. wp_ret.
      rewrite big_sepL_app /=. iDestruct "Hrs" as "(Hr1 & Hr & Hr2)".
      iDestruct (elem_give with "Hn Hr Hpool") as "Hpool".
      iApply ("HΦ" $! tt).
      { iPureIntro. exists (pd <$> e1), (e_d e), (pd <$> e2).
        split; [rewrite fmap_app in Hxs; exact Hxs|]. done. }
      rewrite /LR /=. iFrame "Hpool Hc Ht". iApply ("Hls" $! (Some _)). iExists (e1 ++ e2).
      iSplit; [by rewrite fmap_app|]. iFrame "Hl". rewrite big_sepL_app. iFrame.
    - (* concat *)
      destruct Hpre as (Hne & (xs & Hxs) & (ys & Hys)).
      rewrite (big_sepM_delete _ _ l1) // (big_sepM_delete _ (delete l1 _) l2); last by rewrite lookup_delete_ne.
      iDestruct "Hls" as "(Hl1 & Hl2 & Hls)".
      iDestruct "Hl1" as (es1 <-) "[Hl1 Hr1]". iDestruct "Hl2" as (es2 <-) "[Hl2 Hr2]".
      wp_bind. iApply (wp_list_concat with "Hl1 Hl2"). iIntros "Hl1 Hl2". wp_ret. wp_ret.
      iApply ("HΦ" $! tt). { iPureIntro. eexists _, _. split; [done|]. split; [done|]. done. }
      rewrite /LR /=. iFrame "Hpool Hc Ht".
      iApply (big_sepM_delete _ _ l2); first apply lookup_insert.
      iSplitL "Hl2"; [iExists _; iFrame "Hl2"; auto|].
      rewrite delete_insert_delete.
      iApply (big_sepM_delete _ _ l1).
      { rewrite lookup_delete_ne; [|done]. apply lookup_insert. }
      rewrite (delete_commute _ l1 l2) delete_insert_delete (delete_commute _ l2 l1).
      iFrame "Hls".
      iExists (es1 ++ es2). iSplit; [by rewrite fmap_app|]. iFrame "Hl1". rewrite big_sepL_app. iFrame.
    - (* sort *)
      destruct Hpre as (xs & Hxs & Hrd). iDestruct (map_listR_acc with "Hls") as "[Hl Hls]"; first done.
      iDestruct "Hl" as (es <-) "[Hl Hrs]". wp_bind. iApply (wp_sort_tape _ _ _ g with "Hl Hrs Ht"); first done.
      { intros log a b Ha Hb. eapply reads_mono; [done|]. apply Hrd; by rewrite pd_2. }
      iIntros (log r Hs) "Hl Hrs Ht". wp_bind. iApply (wp_tape_take with "Ht"). iIntros "Ht". wp_ret. wp_ret.
      iApply ("HΦ" $! tt).
      { iPureIntro. eexists _, _, _. split; [done|]. split; [done|]. split; [done|]. by apply sort_facts. }
      rewrite /LR /=. iFrame "Hpool Hc Ht". iApply ("Hls" $! (Some _)). iExists r. iSplit; [done|]. iFrame.
    - (* head *)
      destruct Hpre as (xs & Hxs). iDestruct (big_sepM_lookup_acc with "Hls") as "[Hl Hls]"; first done.
      iDestruct "Hl" as (es <-) "[Hl Hrs]". wp_bind. iApply (wp_list_head with "Hl"). iIntros "Hl". wp_ret. wp_ret.
      iApply ("HΦ" $! tt). { iPureIntro. eexists. split; [done|]. by rewrite seq_head_pd. }
      rewrite /LR. iFrame "Hpool Hc Ht". iApply "Hls". iExists es. iSplit; [done|]. iFrame.
    - (* tail *)
      destruct Hpre as (xs & Hxs). iDestruct (big_sepM_lookup_acc with "Hls") as "[Hl Hls]"; first done.
      iDestruct "Hl" as (es <-) "[Hl Hrs]". wp_bind. iApply (wp_list_tail with "Hl"). iIntros "Hl". wp_ret. wp_ret.
      iApply ("HΦ" $! tt). { iPureIntro. eexists. split; [done|]. by rewrite seq_last_pd. }
      rewrite /LR. iFrame "Hpool Hc Ht". iApply "Hls". iExists es. iSplit; [done|]. iFrame.
    - (* empty *)
      destruct Hpre as (xs & Hxs). iDestruct (big_sepM_lookup_acc with "Hls") as "[Hl Hls]"; first done.
      iDestruct "Hl" as (es <-) "[Hl Hrs]". wp_bind. iApply (wp_list_empty with "Hl"). iIntros "Hl". wp_ret. wp_ret.
      iApply ("HΦ" $! tt).
      { iPureIntro. eexists. split; [done|]. split; [|done]. f_equal. apply bool_decide_ext. by destruct es. }
      rewrite /LR. iFrame "Hpool Hc Ht". iApply "Hls". iExists es. iSplit; [done|]. iFrame.
    - (* count *)
      destruct Hpre as (xs & Hxs). iDestruct (big_sepM_lookup_acc with "Hls") as "[Hl Hls]"; first done.
      iDestruct "Hl" as (es <-) "[Hl Hrs]". iDestruct (erests_size with "Hl Hrs") as %Hsz.
      wp_bind. iApply (wp_list_count with "Hl"); [lia|lia|]. iIntros "Hl". wp_ret. wp_ret.
      iApply ("HΦ" $! tt). { iPureIntro. eexists. split; [done|]. by rewrite fmap_length. }
      rewrite /LR. iFrame "Hpool Hc Ht". iApply "Hls". iExists es. iSplit; [done|]. iFrame.
    - (* walk *)
      destruct Hpre as (xs & Hxs). iDestruct (big_sepM_lookup_acc with "Hls") as "[Hl Hls]"; first done.
      iDestruct "Hl" as (es <-) "[Hl Hrs]". iDestruct (erests_size with "Hl Hrs") as %Hsz.
      wp_bind. iApply (wp_list_head with "Hl"). iIntros "[Hl Hd]". wp_bind.
      iApply (wp_list_walk with "Hd"); [lia|]. iIntros "Hd". wp_ret. wp_ret.
      iApply ("HΦ" $! tt). { iPureIntro. eexists. split; [done|]. done. }
      rewrite /LR. iFrame "Hpool Hc Ht". iApply "Hls". iExists es. iSplit; [done|]. iFrame.
    - (* foreach *)
      destruct Hpre as (xs & Hxs). iDestruct (big_sepM_lookup_acc with "Hls") as "[Hl Hls]"; first done.
      iDestruct "Hl" as (es <-) "[Hl Hrs]". iDestruct (erests_size with "Hl Hrs") as %Hsz.
      wp_bind. rewrite /list_foreach. wp_bind. iApply (wp_list_head with "Hl"). iIntros "[Hl Hd]".
      pose (I := (λ dn : list elem, t ↦ Tape (e_d <$> dn))%I).
      iApply (wp_list_foreach_loop_ro fuel _ I [] es with "[] Hd Ht"); [lia| |].
      { iIntros "!>" (dn x more _) "Ht". iApply (wp_visit with "Ht"). rewrite /I fmap_app. by iIntros "$". }
      iIntros "Hd Ht". wp_bind. iApply (wp_tape_take with "Ht"). iIntros "Ht". wp_ret. wp_ret.
      iApply ("HΦ" $! tt). { iPureIntro. eexists. split; [done|]. by rewrite pd_2. }
      rewrite /LR. iFrame "Hpool Hc Ht". iApply "Hls". iExists es. iSplit; [done|]. iFrame.
    - (* foreach_arg *)
      destruct Hpre as (xs & Hxs). iDestruct (big_sepM_lookup_acc with "Hls") as "[Hl Hls]"; first done.
      iDestruct "Hl" as (es <-) "[Hl Hrs]". iDestruct (erests_size with "Hl Hrs") as %Hsz.
      wp_bind. rewrite /list_foreach_arg. wp_bind. iApply (wp_list_head with "Hl"). iIntros "[Hl Hd]".
      pose (I := (λ dn : list elem, t ↦ Tape (x ← pd <$> dn; [arg; x.2]))%I).
      iApply (wp_list_foreach_loop_ro fuel _ I [] es with "[] Hd Ht"); [lia| |].
      { iIntros "!>" (dn x more _) "Ht". iApply (wp_visit_arg with "Ht"). rewrite /I fmap_app bind_app. by iIntros "$". }
      iIntros "Hd Ht". wp_bind. iApply (wp_tape_take with "Ht"). iIntros "Ht". wp_ret. wp_ret.
      iApply ("HΦ" $! tt). { iPureIntro. eexists. split; [done|]. done. }
      rewrite /LR. iFrame "Hpool Hc Ht". iApply "Hls". iExists es. iSplit; [done|]. iFrame.
    - (* foreach with free *)
      destruct Hpre as (xs & Hxs & HF). iDestruct (map_listR_acc with "Hls") as "[Hl Hls]"; first done.
      iDestruct "Hl" as (es <-) "[Hl Hrs]". wp_bind.
      iApply (wp_list_foreach_free with "Hl Hrs Hc Ht"); [done|done|]. iIntros "Hl Hc Ht".
      wp_bind. iApply (wp_tape_take with "Ht"). iIntros "Ht". wp_ret. wp_ret.
      iApply ("HΦ" $! tt). { iPureIntro. eexists. split; [done|]. by rewrite pd_2. }
      rewrite /LR /=. iFrame "Hpool Hc Ht". iApply ("Hls" $! None). iExists _. iFrame. auto.
  Qed.
End list_hist.

Lemma list_history om K ls t live m fuel c :
  list_start om K ls t live m → (size om ≤ fuel)%nat →
  allowed (lpre om K) lpost (lstate0 om ls live) c →
  succeeds (run (lstep fuel t) tt c m) (λ r m',
    (∃ s', correct lpost (lstate0 om ls live) r.2 s' ∧ heap_live m' (ls_live s')) ∧
    unchanged_outside (HCTL :: t :: ls ++ objs_cells om) m m').
Proof.
  intros (Hok & Ht & (h & Hh & <-) & HK & Hls) Hf Ha.
  pose proof (client_adequacy False (run (lstep fuel t) tt c) 4 om (HCTL :: t :: ls) m
    (λ r m', ∃ s', correct lpost (lstate0 om ls (hc_live h)) r.2 s' ∧ heap_live m' (ls_live s')) Hok) as Had.
  apply Had.
  { intros a [->|[->|Hin]%elem_of_cons]%elem_of_cons; [eauto..|]. destruct (Hls _ Hin) as (?&?&?); eauto. }
  intros HG _ HF. iIntros "(Hc & Htt & Hl) Hpool".
  iApply (wp_run _ _ _ (LR om t) with "[Hc Htt Hl Hpool]").
  - intros. iIntros "HR HΦ". iApply (wp_lstep with "HR HΦ"); [eauto|done| |done].
    rewrite HF. by apply separate_frame.
  - exact Ha.
  - rewrite /LR /=. iFrame "Hpool". iSplitL "Hl"; [|iSplitL "Hc"].
    + assert (Hnd : NoDup ls).
      { destruct Hok as (_ & Hnd & _). apply NoDup_app in Hnd as (Hnd & _).
        apply NoDup_cons in Hnd as [_ Hnd]. by apply NoDup_cons in Hnd as [_ Hnd]. }
      rewrite big_opM_map_to_list map_to_list_to_map.
      2:{ rewrite -list_fmap_compose. by rewrite list_fmap_id. }
      rewrite big_sepL_fmap. iApply (big_sepL_impl with "Hl").
      iIntros "!>" (i l Hl) "(%c0 & %Hc0 & H)". simpl. iExists c0. iFrame.
      destruct (Hls l) as (c1 & Hc1 & ?); [by eapply elem_of_list_lookup_2|]. by simplify_eq.
    + iDestruct "Hc" as (c0 Hc0) "Hc". simplify_eq. iExists (hc_oracle h), (hc_next h). by destruct h.
    + iDestruct "Htt" as (c0 Hc0) "Htt". by simplify_eq.
  - iIntros ([] tr s' Hcor) "(_ & _ & (%o & %n & Hc) & _)". iIntros (m') "Hm".
    iDestruct (memI_lookup with "Hm Hc") as %Hl. iPureIntro.
    exists s'. split; [done|]. exists (HeapCtl (ls_live s') o n). done.
Qed.

(** ** From and to [list_rep] *)
Definition mk (m : mem) (x : Z * Z) : elem := El x.1 x.2 (default U (m !! f_index x.1)).

Lemma pd_mk m (xs : list (Z * Z)) : pd <$> (mk m <$> xs) = xs.
Proof. induction xs as [|[p d] xs IH]; [done|]. csimpl. by rewrite IH. Qed.

Definition aligned (e : elem) : Prop := 0 < e_p e ∧ e_p e mod 8 = 0 ∧ e_p e + 32 ≤ 2 ^ 64.

Lemma links_good m pv xs : links m pv xs →
  Forall (λ e, aligned e ∧ wordcell (e_i e) ∧ m !! f_data (e_p e) = Some (W (e_d e)) ∧ m !! f_index (e_p e) = Some (e_i e)) (mk m <$> xs).
Proof.
  revert pv. induction xs as [|[p d] xs IH]; intros pv; csimpl; [constructor|].
  intros (?&?&?&?&?&?&(c&Hc&?)&?). constructor; [|by eapply IH].
  rewrite /mk /aligned /= Hc /=. done.
Qed.

Lemma node_cells_4 p : node_cells 4 p = [f_next p; f_prev p; f_data p; f_index p].
Proof. rewrite /node_cells /f_next /f_prev /f_data /f_index /=. repeat f_equal; lia. Qed.

Local Arguments node_cells : simpl never.

Section rep.
  Context `{!memG}.

  Lemma links_dseg m pv xs : links m pv xs →
    ([∗ list] a ∈ xs.*1 ≫= node_cells 4, ∃ c, ⌜m !! a = Some c⌝ ∗ a ↦ c) ⊢ dseg (mk m <$> xs) pv 0.
  Proof.
    revert pv. induction xs as [|[p d] xs IH]; intros pv; [simpl; auto|].
    intros (?&?&?&Hn&Hv&Hd&(c&Hc&?)&Hl). rewrite !fmap_cons bind_cons big_sepL_app (IH _ Hl).
    rewrite dseg_cons node_cells_4 /=.
    iIntros "[((%&%&Hn)&(%&%&Hv)&(%&%&Hd)&(%&%&Hi)&_) $]".
    simplify_eq. rewrite /nodeP /= Hc /=.
    replace (hd_p (mk m <$> xs) 0) with (seq_head xs) by (by destruct xs as [|[]]).
    iFrame. done.
  Qed.

  Lemma dseg_links m es pv : Forall (λ e, aligned e ∧ wordcell (e_i e)) es →
    memI m -∗ dseg es pv 0 -∗
    ⌜links m pv (pd <$> es) ∧
     Forall (λ e, m !! f_data (e_p e) = Some (W (e_d e)) ∧ m !! f_index (e_p e) = Some (e_i e)) es⌝.
  Proof.
    intros HF. iIntros "Hm Hd". iInduction es as [|e es] "IH" forall (pv HF); csimpl.
    { iPureIntro. by split. }
    rewrite dseg_cons. iDestruct "Hd" as "[(%Hp&Hn&Hv&Hd&Hi) Hds]".
    inversion_clear HF as [|?? [(?&?&?) ?] HF'].
    iDestruct ("IH" with "[//] Hm Hds") as %[Hl HF].
    iDestruct (memI_lookup with "Hm Hn") as %Hn. iDestruct (memI_lookup with "Hm Hv") as %Hv.
    iDestruct (memI_lookup with "Hm Hd") as %Hd. iDestruct (memI_lookup with "Hm Hi") as %Hi.
    iPureIntro. split; [|by constructor].
    rewrite seq_head_pd. repeat (split; [done || by eauto|]). done.
  Qed.

  Lemma lst_rep m es l :
    Forall (λ e, aligned e ∧ wordcell (e_i e)) es → NoDup (l :: ((e_p <$> es) ≫= node_cells 4)) →
    memI m -∗ lst l es -∗
    ⌜list_rep m l (pd <$> es) ∧
     Forall (λ e, m !! f_data (e_p e) = Some (W (e_d e)) ∧ m !! f_index (e_p e) = Some (e_i e)) es⌝.
  Proof.
    iIntros (HF Hnd) "Hm [Hl Hd]". iDestruct (dseg_links with "Hm Hd") as %[Hli HF']; first done.
    iDestruct (memI_lookup with "Hm Hl") as %Hl. iPureIntro. split; [|done].
    rewrite /list_rep seq_head_pd seq_last_pd pd_1. done.
  Qed.
End rep.

Lemma nodup_nodes (ps : list Z) : NoDup (ps ≫= node_cells 4) → NoDup ps.
Proof.
  induction ps as [|p ps IH]; [constructor|]. rewrite bind_cons. intros (H1 & H2 & H3)%NoDup_app.
  constructor; [|by apply IH]. intros Hin. apply (H2 p).
  - rewrite node_cells_4 /f_next. by left.
  - apply elem_of_list_bind. exists p. split; [|done]. rewrite node_cells_4 /f_next. by left.
Qed.

Lemma list_rep_length m l xs : list_rep m l xs → Z.of_nat (length xs) < 2 ^ 61.
Proof.
  intros (_ & Hl & Hnd). apply NoDup_cons in Hnd as [_ Hnd]. apply nodup_nodes in Hnd.
  rewrite -(fmap_length fst xs). apply aligned_length; [done|].
  apply links_good in Hl. rewrite -{1}(pd_mk m xs) pd_1. apply Forall_fmap.
  eapply Forall_impl; [exact Hl|]. intros e ((?&?&?)&_). simpl. lia.
Qed.

Lemma list_rep_cells m l xs : list_rep m l xs →
  ∀ a, a ∈ l :: (xs.*1 ≫= node_cells 4) → ∃ c, m !! a = Some c ∧ wordcell c.
Proof.
  intros (Hh & Hl & _) a [->|Ha]%elem_of_cons; [eauto|].
  revert Hl Ha. generalize (seq_last xs). clear Hh. induction xs as [|[p d] xs IH]; intros pv Hl Ha.
  { by apply elem_of_nil in Ha. }
  destruct Hl as (?&?&?&?&?&?&?&?). rewrite fmap_cons bind_cons in Ha. apply elem_of_app in Ha as [Ha|Ha]; [|by eapply IH].
  rewrite node_cells_4 in Ha. set_unfold in Ha.
  destruct Ha as [->|[->|[->|[->|[]]]]]; eauto.
Qed.

Lemma link_cells_in l xs a :
  a ∈ l :: (xs.*1 ≫= node_cells 4) → a ∉ link_cells l xs →
  ∃ p d, (p, d) ∈ xs ∧ (a = f_data p ∨ a = f_index p).
Proof.
  intros [->|Ha]%elem_of_cons Hn; [exfalso; apply Hn; by left|].
  apply elem_of_list_bind in Ha as (p & Ha & ([p' d] & -> & Hp)%elem_of_list_fmap).
  exists p', d. split; [done|]. rewrite node_cells_4 in Ha. simpl in *.
  assert (a ≠ f_next p' ∧ a ≠ f_prev p') as [].
  { split; intros ->; apply Hn; right; apply elem_of_list_bind; exists p';
      (split; [set_solver|by apply (elem_of_list_fmap_1 fst _ (p', d))]). }
  set_solver.
Qed.

Lemma sort_rep m K l t xs f g fuel :
  list_rep m l xs → m !! t = Some (Tape []) → (length xs ≤ fuel)%nat →
  separate K (t :: l :: (xs.*1 ≫= node_cells 4)) m →
  (∀ log a b, a ∈ xs.*2 → b ∈ xs.*2 → reads K (f log) (g log) a b) →
  succeeds (list_sort fuel l (tape_cmp t f) m) (λ _ m', ∃ ys calls,
    list_rep m' l ys ∧ m' !! t = Some (Tape calls) ∧ ys ≡ₚ xs ∧
    (∀ c, g = (λ _, c) → total_preorder c → sorted_by c ys ∧ stable_by c xs ys) ∧
    Z.of_nat (length calls) <= 2 * (Z.of_nat (length xs) * Z.log2_up (Z.of_nat (length xs)) + Z.of_nat (length xs)) ∧
    unchanged_outside (t :: link_cells l xs) m m' ∧
    ∃ es log r, msort (λ log, g (flat log)) [] es log r ∧ xs = pd <$> es ∧ ys = pd <$> r ∧ calls = flat log).
Proof.
  intros Hrep Ht Hf HK Hrd. pose proof (list_rep_length _ _ _ Hrep) as Hlen.
  pose proof (list_rep_cells _ _ _ Hrep) as Hcells.
  assert (Htn : t ∉ l :: (xs.*1 ≫= node_cells 4)).
  { intros Hin. destruct (Hcells _ Hin) as (c & Hc & [->|[z ->]]); congruence. }
  destruct Hrep as (Hh & Hl & Hnd). pose proof (links_good _ _ _ Hl) as Hgood.
  apply (wp_adequacy_frame False (t :: l :: (xs.*1 ≫= node_cells 4))). intros HG _ Hfm. iIntros "Hm".
  iDestruct (big_sepM_cells m (t :: l :: (xs.*1 ≫= node_cells 4)) with "Hm") as "(Ht & Hhd & Hc)".
  { by constructor. }
  { intros a [->|Ha]%elem_of_cons; [eauto|]. destruct (Hcells _ Ha) as (?&?&?); eauto. }
  rewrite (links_dseg m (seq_last xs)) //.
  iDestruct "Ht" as (? ?) "Ht". iDestruct "Hhd" as (? ?) "Hhd". simplify_eq.
  set (es := mk m <$> xs) in *.
  assert (Hes : pd <$> es = xs) by apply pd_mk.
  assert (Heslen : length es = length xs) by apply fmap_length.
  iAssert (lst l es) with "[Hhd Hc]" as "Hlst".
  { rewrite /lst -seq_head_pd -seq_last_pd Hes. iFrame. }
  iApply (wp_list_sort (λ log, g (flat log)) (λ log, t ↦ Tape (flat log))%I (.∈ e_d <$> es) fuel l _ es [] with "[] Hlst [Ht]");
    [lia|lia| | |done|].
  { apply Forall_forall. intros e He. by apply elem_of_list_fmap_1. }
  { iIntros "!>" (log a b Ψ) "%Ha %Hb Ht HΨ". rewrite -pd_2 Hes in Ha Hb.
    iApply (wp_tape_cmp _ _ _ _ _ g with "Ht"); [|iIntros "Ht"].
    { eapply reads_mono; [|by apply Hrd]. rewrite Hfm. by apply separate_frame. }
    iApply "HΨ". by rewrite flat_snoc. }
  iIntros (log r Hs) "Hl Ht". iIntros (m') "Hm".
  pose proof (msort_perm _ _ _ _ _ Hs) as Hperm.
  iDestruct (memI_lookup with "Hm Ht") as %Ht'.
  iDestruct (lst_rep with "Hm Hl") as %[Hrep Hdi].
  { rewrite Hperm. eapply Forall_impl; [exact Hgood|]. naive_solver. }
  { rewrite Hperm -pd_1 Hes. done. }
  iAssert ⌜∀ a c, a ∉ t :: l :: (xs.*1 ≫= node_cells 4) → m !! a = Some c → m' !! a = Some c⌝%I as %Hfr.
  { iIntros (a c' Ha Hc'). iDestruct (memI_frame with "Hm") as %Hsub. iPureIntro.
    eapply lookup_weaken; [|exact Hsub]. rewrite Hfm. by apply map_filter_lookup_Some. }
  iPureIntro. destruct (sort_facts _ _ _ _ Hs) as (H1 & H2 & H3). rewrite Hes in H1 H2 H3.
  exists (pd <$> r), (flat log). split; [done|]. split; [done|]. split; [done|]. split; [done|]. split; [done|]. split; [|by eauto 10].
  intros a c Ha Hc. destruct (decide (a ∈ t :: l :: (xs.*1 ≫= node_cells 4))) as [Hin|Hin]; [|by apply Hfr].
  apply elem_of_cons in Hin as [->|Hin]; [exfalso; apply Ha; by left|].
  destruct (link_cells_in _ _ _ Hin) as (p & d & Hp & Heq); [intros ?; apply Ha; by right|].
  assert (He : mk m (p, d) ∈ es) by by apply elem_of_list_fmap_1.
  rewrite Hperm in Hdi. rewrite Forall_forall in Hgood. rewrite Forall_forall in Hdi.
  destruct (Hgood _ He) as (_ & _ & Hd1 & Hi1). destruct (Hdi _ He) as (Hd2 & Hi2). simpl in *.
  destruct Heq as [-> | ->]; congruence.
Qed.

Lemma concat_rep m l1 l2 xs ys :
  list_rep m l1 xs → list_rep m l2 ys →
  NoDup ((l1 :: (xs.*1 ≫= node_cells 4)) ++ l2 :: (ys.*1 ≫= node_cells 4)) →
  succeeds (list_concat l1 l2 m) (λ _ m',
    list_rep m' l1 (xs ++ ys) ∧ unchanged_outside (link_cells l1 xs ++ link_cells l2 ys) m m').
Proof.
  intros Hrep1 Hrep2 Hnd0.
  pose proof (list_rep_cells _ _ _ Hrep1) as Hcells1. pose proof (list_rep_cells _ _ _ Hrep2) as Hcells2.
  destruct Hrep1 as (Hh1 & Hl1 & Hnd1). pose proof (links_good _ _ _ Hl1) as Hgood1.
  destruct Hrep2 as (Hh2 & Hl2 & Hnd2). pose proof (links_good _ _ _ Hl2) as Hgood2.
  apply (wp_adequacy_frame False ((l1 :: (xs.*1 ≫= node_cells 4)) ++ l2 :: (ys.*1 ≫= node_cells 4))). intros HG _ Hfm. iIntros "Hm".
  iDestruct (big_sepM_cells m _ with "Hm") as "Hc"; first exact Hnd0.
  { intros a [Ha|Ha]%elem_of_app; [destruct (Hcells1 _ Ha) as (?&?&?)|destruct (Hcells2 _ Ha) as (?&?&?)]; eauto. }
  rewrite big_sepL_app /=. iDestruct "Hc" as "[[Hhd1 Hc1] [Hhd2 Hc2]]".
  rewrite (links_dseg m (seq_last xs)) // (links_dseg m (seq_last ys)) //.
  iDestruct "Hhd1" as (? ?) "Hhd1". iDestruct "Hhd2" as (? ?) "Hhd2". simplify_eq.
  set (es1 := mk m <$> xs) in *. set (es2 := mk m <$> ys) in *.
  assert (Hes1 : pd <$> es1 = xs) by apply pd_mk. assert (Hes2 : pd <$> es2 = ys) by apply pd_mk.
  iAssert (lst l1 es1) with "[Hhd1 Hc1]" as "H1".
  { rewrite /lst -seq_head_pd -seq_last_pd Hes1. iFrame. }
  iAssert (lst l2 es2) with "[Hhd2 Hc2]" as "H2".
  { rewrite /lst -seq_head_pd -seq_last_pd Hes2. iFrame. }
  iApply (wp_list_concat with "H1 H2"). iIntros "Hl Hhd2". iIntros (m') "Hm".
  iDestruct (lst_rep with "Hm Hl") as %[Hrep Hdi].
  { apply Forall_app; split; (eapply Forall_impl; [eassumption|]); naive_solver. }
  { rewrite fmap_app -!pd_1 Hes1 Hes2 bind_app. 
    simpl in Hnd0. apply NoDup_cons in Hnd0 as [Hn1 Hn2]. apply NoDup_app in Hn2 as (Hn2 & Hn3 & Hn4).
    apply NoDup_cons in Hn4 as [Hn4 Hn5]. constructor.
    - set_solver.
    - apply NoDup_app. split; [done|]. split; [|done]. intros a Ha Ha'. apply (Hn3 a Ha). by right. }
  iAssert ⌜∀ a c, a ∉ (l1 :: (xs.*1 ≫= node_cells 4)) ++ l2 :: (ys.*1 ≫= node_cells 4) → m !! a = Some c → m' !! a = Some c⌝%I as %Hfr.
  { iIntros (a c' Ha Hc'). iDestruct (memI_frame with "Hm") as %Hsub. iPureIntro.
    eapply lookup_weaken; [|exact Hsub]. rewrite Hfm. by apply map_filter_lookup_Some. }
  iPureIntro. rewrite fmap_app Hes1 Hes2 in Hrep. split; [done|].
  intros a c Ha0 Hc. assert (a ∉ link_cells l1 xs ∧ a ∉ link_cells l2 ys) as [Ha1 Ha2].
  { by apply not_elem_of_app. }
  rewrite Forall_forall in Hdi. rewrite Forall_forall in Hgood1. rewrite Forall_forall in Hgood2.
  destruct (decide (a ∈ (l1 :: (xs.*1 ≫= node_cells 4)) ++ l2 :: (ys.*1 ≫= node_cells 4))) as [Hin|Hin]; [|by apply Hfr].
  apply elem_of_app in Hin as [Hin|Hin].
  - destruct (link_cells_in _ _ _ Hin) as (p & d & Hp & Heq); [done|].
    assert (He : mk m (p, d) ∈ es1) by by apply elem_of_list_fmap_1.
    destruct (Hgood1 _ He) as (_ & _ & Hd1 & Hi1). destruct (Hdi (mk m (p, d))) as (Hd2 & Hi2); [set_solver|].
    simpl in *. destruct Heq as [-> | ->]; congruence.
  - destruct (link_cells_in _ _ _ Hin) as (p & d & Hp & Heq); [done|].
    assert (He : mk m (p, d) ∈ es2) by by apply elem_of_list_fmap_1.
    destruct (Hgood2 _ He) as (_ & _ & Hd1 & Hi1). destruct (Hdi (mk m (p, d))) as (Hd2 & Hi2); [set_solver|].
    simpl in *. destruct Heq as [-> | ->]; congruence.
Qed.

(** ** The forms used in the property file *)
Lemma succeeds_mono {A} (r : res A) (φ ψ : A → mem → Prop) :
  succeeds r φ → (∀ v m, φ v m → ψ v m) → succeeds r ψ.
Proof. destruct r; simpl; auto. Qed.

Lemma safe_mono {A} (r : res A) (φ ψ : A → mem → Prop) :
  safe r φ → (∀ v m, φ v m → ψ v m) → safe r ψ.
Proof. destruct r; simpl; auto. Qed.

Lemma sort_sorted m K l t xs f c fuel :
  list_rep m l xs → m !! t = Some (Tape []) → (length xs ≤ fuel)%nat →
  separate K (t :: l :: (xs.*1 ≫= node_cells 4)) m →
  (∀ a b, a ∈ xs.*2 → b ∈ xs.*2 → reads K f c a b) → total_preorder c →
  succeeds (list_sort fuel l (tape_cmp t (λ _, f)) m) (λ _ m',
    ∃ ys, list_rep m' l ys ∧ Permutation ys xs ∧ sorted_by c ys ∧
    unchanged_outside (t :: link_cells l xs) m m').
Proof.
  intros Hr Ht Hf HK Hrd Hc. eapply succeeds_mono; [by apply (sort_rep m K l t xs (λ _, f) (λ _, c))|]. simpl.
  intros _ m' (ys & calls & H1 & H2 & H3 & H4 & H5 & H6 & _). exists ys. destruct (H4 c); auto.
Qed.
Lemma sort_stable m K l t xs f c fuel :
  list_rep m l xs → m !! t = Some (Tape []) → (length xs ≤ fuel)%nat →
  separate K (t :: l :: (xs.*1 ≫= node_cells 4)) m →
  (∀ a b, a ∈ xs.*2 → b ∈ xs.*2 → reads K f c a b) → total_preorder c →
  succeeds (list_sort fuel l (tape_cmp t (λ _, f)) m) (λ _ m', ∃ ys, list_rep m' l ys ∧ stable_by c xs ys).
Proof.
  intros Hr Ht Hf HK Hrd Hc. eapply succeeds_mono; [by apply (sort_rep m K l t xs (λ _, f) (λ _, c))|]. simpl.
  intros _ m' (ys & calls & H1 & H2 & H3 & H4 & H5 & H6 & _). exists ys. destruct (H4 c); auto.
Qed.
Lemma sort_any m K l t xs f g fuel :
  list_rep m l xs → m !! t = Some (Tape []) → (length xs ≤ fuel)%nat →
  separate K (t :: l :: (xs.*1 ≫= node_cells 4)) m →
  (∀ log a b, a ∈ xs.*2 → b ∈ xs.*2 → reads K (f log) (g log) a b) →
  succeeds (list_sort fuel l (tape_cmp t f) m) (λ _ m', ∃ ys, list_rep m' l ys ∧ Permutation ys xs ∧
    unchanged_outside (t :: link_cells l xs) m m').
Proof.
  intros Hr Ht Hf HK Hrd. eapply succeeds_mono; [by apply (sort_rep m K l t xs f g)|]. simpl.
  intros _ m' (ys & calls & H1 & H2 & H3 & H4 & H5 & H6 & _). exists ys. auto.
Qed.
Lemma sort_count m K l t xs f g fuel :
  list_rep m l xs → m !! t = Some (Tape []) → (length xs ≤ fuel)%nat →
  separate K (t :: l :: (xs.*1 ≫= node_cells 4)) m →
  (∀ log a b, a ∈ xs.*2 → b ∈ xs.*2 → reads K (f log) (g log) a b) →
  let N := Z.of_nat (length xs) in
  succeeds (list_sort fuel l (tape_cmp t f) m) (λ _ m', ∃ calls, m' !! t = Some (Tape calls) ∧
    Z.of_nat (length calls) <= 2 * (N * Z.log2_up N + N)).
Proof.
  intros Hr Ht Hf HK Hrd. eapply succeeds_mono; [by apply (sort_rep m K l t xs f g)|]. simpl.
  intros _ m' (ys & calls & H1 & H2 & H3 & H4 & H5 & H6 & _). exists calls. auto.
Qed.

Lemma links_head m pv xs : links m pv xs → xs ≠ [] → seq_head xs ≠ 0.
Proof. destruct xs as [|[p d] xs]; [done|]. intros (?&_) _. rewrite /seq_head /=. lia. Qed.

Lemma foreach_loop_exact (t : Z) (func : Z → M unit) (g : Z → list Z) m fuel :
  (∀ d m l, m !! t = Some (Tape l) → func d m = Ok tt (<[t := Tape (l ++ g d)]> m)) →
  ∀ xs pv l, links m pv xs → (length xs ≤ fuel)%nat →
  m !! t = Some (Tape []) →
  list_foreach_loop fuel (seq_head xs) func (<[t := Tape l]> m) =
    Ok tt (<[t := Tape (l ++ (xs ≫= λ x, g x.2))]> m).
Proof.
  intros Hfunc. induction fuel as [|fuel IH]; intros xs pv l Hl Hlen Ht.
  - destruct xs as [|x xs]; simpl in Hlen; [|lia]. rewrite /= app_nil_r //.
  - destruct xs as [|[p d] xs]; simpl in Hlen; [rewrite /= app_nil_r //|].
    destruct Hl as (Hp & Hl2 & Hl3 & Hn & Hv & Hd & Hi & Hl). cbn [list_foreach_loop].
    rewrite /seq_head /=. destruct (decide (p = null)) as [->|_]; [done|].
    assert (Htd : t ≠ f_data p) by congruence. assert (Htn : t ≠ f_next p) by congruence.
    rewrite /mbind /M_bind /load lookup_insert_ne // Hd lookup_insert_ne // Hn.
    rewrite (Hfunc _ _ l); [|by rewrite lookup_insert]. rewrite insert_insert.
    rewrite (IH xs p (l ++ g d)); [|done|lia|done]. by rewrite app_assoc.
Qed.

Lemma foreach_exact m l t xs fuel :
  list_rep m l xs → m !! t = Some (Tape []) → (length xs ≤ fuel)%nat →
  list_foreach fuel l (visit t) m = Ok tt (<[t := Tape xs.*2]> m).
Proof.
  intros (Hh & Hl & _) Ht Hf. rewrite /list_foreach /list_head /mbind /M_bind /load Hh.
  rewrite -{1}(insert_id _ _ _ Ht).
  rewrite (foreach_loop_exact t _ (λ d, [d]) m fuel _ xs _ [] Hl Hf Ht).
  - assert ((xs ≫= λ x, [x.2]) = xs.*2) as ->; [|done].
    clear. by induction xs as [|x xs IH]; csimpl; [|rewrite IH].
  - intros d m' l' Hm'. by rewrite /visit /tape_push Hm'.
Qed.
Lemma foreach_arg_exact m l t xs arg fuel :
  list_rep m l xs → m !! t = Some (Tape []) → (length xs ≤ fuel)%nat →
  list_foreach_arg fuel l (visit_arg t) arg m = Ok tt (<[t := Tape (x ← xs; [arg; x.2])]> m).
Proof.
  intros (Hh & Hl & _) Ht Hf. rewrite /list_foreach_arg /list_head /mbind /M_bind /load Hh.
  rewrite -{1}(insert_id _ _ _ Ht).
  rewrite (foreach_loop_exact t _ (λ d, [arg; d]) m fuel _ xs _ [] Hl Hf Ht); [done|].
  intros d m' l' Hm'. rewrite /visit_arg /tape_push /mbind /M_bind Hm' lookup_insert insert_insert -app_assoc //.
Qed.

(** ** Any callback *)
Lemma each_app func l k m : each func (l ++ k) m = (each func l;; each func k) m.
Proof.
  revert m. induction l as [|d l IH]; intros m; [done|]. simpl. unfold mbind, M_bind in *.
  destruct (func d m) as [[] m'| | |]; [apply IH|done..].
Qed.

(** The nodes [xs], linked by [next]. *)
Fixpoint chained (m : mem) (xs : list (Z * Z)) : Prop :=
  match xs with
  | [] => True
  | (p, d) :: xs => 0 < p ∧ m !! f_next p = Some (W (seq_head xs)) ∧ m !! f_data p = Some (W d) ∧ chained m xs
  end.

Lemma links_chained m pv xs : links m pv xs → chained m xs.
Proof.
  revert pv. induction xs as [|[p d] xs IH]; intros pv; [done|].
  intros (Hp & _ & _ & Hn & _ & Hd & _ & Hl). simpl. eauto.
Qed.

(** [P more] says what the callback must leave as it is while [more] is still
    to be visited. *)
Lemma foreach_loop_any func (P : list (Z * Z) → mem → Prop) all m :
  (∀ dn x more m1 m2, all = dn ++ x :: more → P (x :: more) m1 → func x.2 m1 = Ok tt m2 → P more m2) →
  (∀ more m1, P more m1 → same_nodes more m m1) →
  ∀ xs fuel dn more m1, all = dn ++ xs ++ more → chained m xs → (length xs ≤ fuel)%nat → P (xs ++ more) m1 →
  list_foreach_loop fuel (seq_head xs) func m1 = each func xs.*2 m1 ∧
  (∀ m2, each func xs.*2 m1 = Ok tt m2 → P more m2).
Proof.
  intros Hstep Hsame xs. induction xs as [|[p d] xs IH]; intros fuel dn more m1 Hall Hc Hf HP.
  { split; [by destruct fuel|]. simpl. by intros m2 [= <-]. }
  simpl in Hf. destruct fuel as [|fuel]; [lia|]. destruct Hc as (Hp & Hn & Hd & Hc).
  cbn [list_foreach_loop]. rewrite /seq_head /=. destruct (decide (p = null)) as [->|_]; [by unfold null in Hp|].
  pose proof (Hsame _ _ HP) as Hs. rewrite /mbind /M_bind /load.
  rewrite (Hs p d (f_data p)); [|by left|rewrite node_cells_4; set_solver]. rewrite Hd.
  rewrite (Hs p d (f_next p)); [|by left|rewrite node_cells_4; set_solver]. rewrite Hn.
  destruct (func d m1) as [[] m2| | |] eqn:E; [|done..].
  apply (IH fuel (dn ++ [(p, d)]) more m2).
  - rewrite Hall -!app_assoc //.
  - done.
  - lia.
  - by eapply (Hstep dn (p, d)).
Qed.

Lemma list_foreach_any func m l xs fuel :
  list_rep m l xs → (length xs ≤ fuel)%nat → spares_unvisited func xs m →
  list_foreach fuel l func m = each func xs.*2 m.
Proof.
  intros (Hh & Hl & _) Hf Hsp. rewrite /list_foreach /list_head /mbind /M_bind /load Hh.
  eapply (foreach_loop_any func (λ more m1, same_nodes more m m1) xs m Hsp ltac:(done) xs fuel [] []);
    [by rewrite app_nil_r|by eapply links_chained|done|]. by intros p d a.
Qed.
Lemma list_foreach_arg_any func m l xs arg fuel :
  list_rep m l xs → (length xs ≤ fuel)%nat → spares_unvisited (func arg) xs m →
  list_foreach_arg fuel l func arg m = each (func arg) xs.*2 m.
Proof. apply list_foreach_any. Qed.

Lemma correct_app {op out sst} (post : sst → op → out → sst → Prop) s tr1 tr2 s'' :
  correct post s (tr1 ++ tr2) s'' → ∃ s', correct post s tr1 s' ∧ correct post s' tr2 s''.
Proof.
  revert s. induction tr1 as [|[o a] tr1 IH]; intros s; simpl.
  - intros H. exists s. split; [constructor|done].
  - inversion_clear 1 as [|? ? ? s1 ? ? H1 H2]. apply IH in H2 as (s' & H3 & H4).
    exists s'. split; [econstructor; eauto|done].
Qed.

Lemma foreach_free_last om K ls t live m fuel c :
  list_start om K ls t live m → (size om ≤ fuel)%nat →
  allowed (lpre om K) lpost (lstate0 om ls live) c →
  succeeds (run (lstep fuel t) tt c m) (λ r m',
    ∀ tr l a, r.2 = tr ++ [(LForeachFree l, a)] →
    ∃ s xs, correct lpost (lstate0 om ls live) tr s ∧ has_list s l xs ∧
      a = OData xs.*2 ∧ heap_live m' (free_all xs.*2 (ls_live s))).
Proof.
  intros H1 H2 H3. eapply succeeds_mono; [by eapply list_history|]. simpl.
  intros r m' ((s' & Hc & Hlive) & _) tr l a Htr. rewrite Htr in Hc.
  apply correct_app in Hc as (s & Hc1 & Hc2). inversion Hc2 as [|? ? ? s1 ? ? Hp Hc3]; subst.
  inversion Hc3; subst. destruct Hp as (xs & Hx & -> & ->). exists s, xs. done.
Qed.
