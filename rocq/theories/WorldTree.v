(** * Trees as part of a world. *)
From Verif Require Export WorldList.
From Verif Require Import TreeHist.
Global Open Scope Z_scope.

Lemma tree_laws fuel t : kind_laws (tree_kind fuel t).
Proof.
  constructor; simpl; try done.
  - lia.
  - intros s o. destruct o; try apply submseteq_nil_l. done.
  - intros s o. destruct o; auto.
  - intros om K f l X [s fc] o HX. rewrite /tree_pre /=. destruct o; simpl; try done.
    intros [(c & xs & H1 & HF) H2]. split; [|done]. exists c, xs. split; [done|].
    eapply Forall_impl; [exact HF|]. intros x. apply freeable_mono.
  - intros om K f l X [s fc] o a [s1 fc1] HX [Hpre _] [Hpost Hf]. destruct s as [fr tb lv]. simpl in *. subst fc1.
    assert (o = TrForeachFree ∨ o ≠ TrForeachFree) as [->|Hno] by (destruct o; auto).
    + simpl in Hpost, Hpre. destruct Hpost as (c & xs & -> & -> & ->). destruct Hpre as (c0 & xs0 & [= <- <-] & HF). simpl in *.
      rewrite Forall_forall in HF. exists (free_all xs.*2 l). rewrite free_all_union.
      2: { intros d (x & -> & Hx)%elem_of_list_fmap. eapply freeable_notin; [done|]. by apply HF. }
      split; [done|]. split; [by eapply map_disjoint_weaken_l; [|apply WorldList.free_all_subseteq]|].
      split; [|done]. exists c, xs. done.
    + exists l. destruct o; simpl in *; try done.
      * destruct Hpost as [-> ->]. done.
      * destruct Hpost as (c & xs & z & cl & -> & -> & Hc & [(q & H1 & H2 & ->)|(l' & r & H1 & H2 & H3 & H4 & ->)]); simpl;
          (split; [done|]); (split; [done|]); (split; [|done]); exists c, xs, z, cl; (split; [done|]); (split; [done|]); (split; [done|]).
        -- left. by exists q.
        -- right. by exists l', r.
      * destruct Hpost as (c & xs & z & cl & -> & -> & Hc & [(l' & q & r & H1 & H2 & ->)|(H1 & H2 & ->)]); simpl;
          (split; [done|]); (split; [done|]); (split; [|done]); exists c, xs, z, cl; (split; [done|]); (split; [done|]); (split; [done|]).
        -- left. by exists l', q, r.
        -- right. done.
      * destruct Hpost as (c & l' & d & r & cl & -> & -> & Hc & ->). simpl. split; [done|]. split; [done|]. split; [|done]. by exists c, l', d, r, cl.
      * destruct Hpost as (c & xs & z & cl & -> & -> & Hc & -> & H1). simpl. split; [done|]. split; [done|]. split; [|done]. by exists c, xs, z, cl.
      * destruct Hpost as (c & xs & z & cl & -> & -> & Hc & -> & H1). simpl. split; [done|]. split; [done|]. split; [|done]. by exists c, xs, z, cl.
      * destruct Hpost as (c & xs & -> & -> & ->). simpl. split; [done|]. split; [done|]. split; [|done]. by exists c, xs.
      * destruct Hpost as (c & xs & -> & -> & ->). simpl. split; [done|]. split; [done|]. split; [|done]. by exists c, xs.
      * destruct Hpost as (c & xs & -> & -> & ->). simpl. split; [done|]. split; [done|]. split; [|done]. by exists c, xs.
      * destruct Hpost as (c & xs & -> & -> & ->). simpl. split; [done|]. split; [done|]. split; [|done]. by exists c, xs.
  - intros om K [s fc] o a [s1 fc1] p [Hpre _] [Hpost Hf]. destruct s as [fr tb lv]. simpl in *. subst fc1. rewrite /tree_elems. destruct o; simpl in *.
    + destruct Hpost as [-> ->]. rewrite /tree_nodes /=. intros [Hp|Hp]; [|by apply elem_of_nil in Hp].
      apply elem_of_union in Hp as [Hp|Hp]; [by left|]. right. destruct tb as [[c' xs]|]; [|by apply elem_of_empty in Hp].
      by apply elem_of_list_to_set in Hp.
    + destruct Hpre as (_ & Hp0 & _).
      destruct Hpost as (c & xs & z & cl & -> & -> & Hc & [(q & H1 & H2 & ->)|(l' & r & -> & H2 & H3 & H4 & ->)]); simpl; [done|].
      rewrite !fmap_app fmap_cons !elem_of_app elem_of_cons. simpl. intros [Hp|[Hp|[->|Hp]]]; [left; set_solver|tauto..].
    + destruct Hpost as (c & xs & z & cl & -> & -> & Hc & [(l' & q & r & -> & H2 & ->)|(H1 & H2 & ->)]); simpl; [|done].
      rewrite !fmap_app fmap_cons !elem_of_app elem_of_cons elem_of_union elem_of_singleton. simpl. tauto.
    + destruct Hpost as (c & l' & d & r & cl & -> & -> & Hc & ->). simpl.
      rewrite !fmap_app fmap_cons !elem_of_app elem_of_cons elem_of_union elem_of_singleton. simpl. tauto.
    + by destruct Hpost as (c & xs & z & cl & -> & -> & Hc & -> & H1).
    + by destruct Hpost as (c & xs & z & cl & -> & -> & Hc & -> & H1).
    + by destruct Hpost as (c & xs & -> & -> & ->).
    + by destruct Hpost as (c & xs & -> & -> & ->).
    + by destruct Hpost as (c & xs & -> & -> & ->).
    + by destruct Hpost as (c & xs & -> & -> & ->).
    + destruct Hpost as (c & xs & -> & -> & ->). simpl. intros [?|Hp]; [by left|by apply elem_of_nil in Hp].
Qed.

(** ** The comparison stays in the tree *)
Lemma bind_Ok {A B} (c : M A) (k : A → M B) m v m' : (c ≫= k) m = Ok v m' → ∃ x m1, c m = Ok x m1 ∧ k x m1 = Ok v m'.
Proof. rewrite /mbind /M_bind. destruct (c m) as [x m1| | |]; [|done..]. eauto. Qed.

Lemma wp_fact `{!memG} {A} (c : M A) (P : A → Prop) Φ : (∀ m v m', c m = Ok v m' → P v) →
  wp c (λ v, ⌜P v⌝ -∗ Φ v) -∗ wp c Φ.
Proof.
  rewrite wp_unseal. iIntros (HP) "H". iIntros (m) "Hm". iMod ("H" with "Hm") as "H". iModIntro.
  destruct (c m) as [v m'| | |] eqn:Hc; [|done..]. iDestruct "H" as "[$ H]". iApply "H". iPureIntro. by eapply HP.
Qed.

Definition comparison (t : Z) (f : Z → Z → M Z) (cs : option treeS) : Prop := ∀ st, cs = Some st → tr_cmp st = TC t f.

Lemma tree_remove_comparison fuel st d m r m' : tree_remove fuel st d m = Ok r m' → tr_cmp r.2 = tr_cmp st.
Proof.
  rewrite /tree_remove. intros (x & m1 & _ & H1)%bind_Ok. case_decide.
  - by injection H1 as <- _.
  - apply bind_Ok in H1 as (y & m2 & _ & H1). by injection H1 as <- _.
Qed.

Lemma trstep_comparison fuel t f cs o m r m' : comparison t f cs → trstep fuel t cs o m = Ok r m' →
  comparison t (match o with TrInit f _ => f | _ => f end) r.1.
Proof.
  intros Hc Hr st Hst. destruct o as [f' c'| | | | | | | | | | ], cs as [st0|]; simpl in Hr; try done;
    try (injection Hr as <- _; simpl in Hst; injection Hst as <-; try done; by apply Hc);
    repeat match goal with H : (_ ≫= _) _ = Ok _ _ |- _ => apply bind_Ok in H as (? & ? & ? & H) end;
    injection Hr as <- _; simpl in Hst; try done; injection Hst as <-; try (by apply Hc).
  - match goal with H : tree_insert _ _ _ _ _ = _ |- _ => rename H into Hi end. rewrite /tree_insert in Hi.
    repeat match goal with H : (_ ≫= _) _ = Ok _ _ |- _ => apply bind_Ok in H as (? & ? & ? & H) end. injection Hi as <- _. simpl. by apply Hc.
  - match goal with H : tree_remove _ _ _ _ = _ |- _ => apply tree_remove_comparison in H as -> end. by apply Hc.
  - match goal with H : tree_remove_existing _ _ _ _ = _ |- _ => rename H into Hi end. rewrite /tree_remove_existing in Hi.
    repeat match goal with H : (_ ≫= _) _ = Ok _ _ |- _ => apply bind_Ok in H as (? & ? & ? & H) end. injection Hi as <- _.
    match goal with H : tree_remove _ _ _ _ = _ |- _ => apply tree_remove_comparison in H as -> end. by apply Hc.
Qed.

Section core.
  Variable t : Z.

  Definition treecore (cs : option treeS) (s : trstate * (Z → Z → M Z)) (int : gmap Z region) : iProp :=
    ⌜int = ∅⌝ ∗ t ↦ Tape [] ∗
    match ts_tree s.1 with
    | None => ⌜cs = None⌝
    | Some (c, xs) => ∃ T, ⌜cs = Some (TreeS (root T) (TC t s.2) (Z.of_nat (length xs))) ∧ total_preorder c ∧
        increasing c xs ∧ avl T ∧ inorder T = xs⌝ ∗ treeR T
    end.

  Lemma treecore_comparison cs s int : treecore cs s int ⊢ ⌜comparison t s.2 cs⌝.
  Proof.
    iIntros "(_ & _ & H)". destruct (ts_tree s.1) as [[c xs]|].
    - iDestruct "H" as (T (-> & _)) "_". iPureIntro. by intros st [= <-].
    - iDestruct "H" as %->. done.
  Qed.

  Lemma TRel_join `{!memG} om D (Q : Prop) cs s :
    (Q → ∀ c xs, ts_tree s.1 = Some (c, xs) → dataok D Q s.2 c xs) →
    pool 4 om (TreeSpec.ts_free s.1) -∗ ([∗ list] x ∈ tree_elems s.1, rest 4 om x.1) -∗ treecore cs s ∅ -∗
    hctl (TreeSpec.ts_live s.1) -∗ TRel om t D Q cs s.1.
  Proof.
    iIntros (Hok) "Hp Hr (_ & Ht & HT) Hc". rewrite /TRel /TreeR /tree_elems. iFrame "Hp Hc Ht".
    destruct (ts_tree s.1) as [[c xs]|]; [|done]. iDestruct "HT" as (T (-> & H1 & H2 & H3 & H4)) "HT".
    iExists T, s.2. iFrame. iPureIntro. split; [done|]. split; [done|]. split; [|done]. intros HQ. by apply Hok.
  Qed.
  Lemma TRel_split `{!memG} om D (Q : Prop) cs s f : comparison t f cs →
    TRel om t D Q cs s -∗ pool 4 om (TreeSpec.ts_free s) ∗ treecore cs (s, f) ∅ ∗ hctl (TreeSpec.ts_live s).
  Proof.
    iIntros (Hf) "($ & $ & Ht & HT)". rewrite /treecore /TreeR /=. iSplit; [done|]. iFrame "Ht".
    destruct (ts_tree s) as [[c xs]|]; [|done]. iDestruct "HT" as (T f' (-> & H1 & _ & H2 & H3 & H4)) "[HT _]".
    iExists T. iFrame. iPureIntro. specialize (Hf _ eq_refl). simpl in Hf. rewrite -Hf. done.
  Qed.
End core.

Definition tree_ok fuel t : kind_ok fuel (tree_kind fuel t).
Proof.
  refine (KindOk fuel (tree_kind fuel t) (treecore t) _ _ _ _ _ _ _); simpl.
  - done.
  - iIntros (cs [s f] int) "(_ & _ & H)". rewrite /tree_elems /=. destruct (ts_tree s) as [[c xs]|]; [|auto].
    iDestruct "H" as (T (_ & _ & _ & _ & <-)) "HT". by iApply treeR_fnodes.
  - intros m Ht. iIntros "[(%c & %Hc & Ht) _]". rewrite Ht in Hc. injection Hc as <-. by iFrame.
  - intros m Ht a ->%elem_of_list_singleton. by eexists.
  - done.
  - iIntros (cs s int) "(-> & _)". done.
  - iIntros (G om K int cs s o Φ Henv HK Hom Hf [Hpre Hcmp] Hd) "Hp Hr Hcore Hc HΦ".
    iAssert ⌜int = ∅⌝%I as %->; [by iDestruct "Hcore" as "[-> _]"|]. rewrite left_id_L.
    iDestruct (treecore_comparison with "Hcore") as %Hcs.
    iApply (wp_fact _ _ _ (λ m v m', trstep_comparison fuel t s.2 cs o m v m' Hcs)).
    pose (D := match o with TrInit _ _ => λ _, False | _ => tree_data s.1 o end).
    iApply (wp_trstep om t D K (compares o) Hom fuel cs s.1 o with "[Hp Hr Hcore Hc]"); [lia|done|done| | |].
    + destruct o; try exact Hpre. split; [exact Hpre|]. intros a b []. 
    + iApply (TRel_join with "Hp Hr Hcore Hc"). intros Ho c xs Hxs _.
      assert (HD : D = tree_data s.1 o) by (rewrite /D; destruct o; done). rewrite HD. split.
      * intros a b Ha Hb. eapply reads_mono; [|by eapply Hcmp]. done.
      * intros x Hx. rewrite /tree_data /tree_elems Hxs. apply elem_of_app. by right.
    + iIntros (cs' a s' Hpost) "HR". iIntros (Hcs'). iDestruct (TRel_split with "HR") as "(Hp & Hcore & Hc)"; [exact Hcs'|].
      iApply ("HΦ" $! cs' a (s', _) ∅ with "[%] [%] Hp Hcore [Hc]"); [done|apply map_disjoint_empty_l|by rewrite left_id_L].
Qed.
