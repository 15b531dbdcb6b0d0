(** * An allocator as part of a world. *)
From Verif Require Export WorldProof.
From Verif Require Import AllocHist.
Global Open Scope Z_scope.

Definition poolR (cs : option allocator) (s : qstate) (int : gmap Z region) : iProp :=
  ⌜int = qs_own s⌝ ∗
  match qs_cfg s with
  | None => ⌜cs = None ∧ qs_own s = ∅ ∧ qs_blocks s = ∅ ∧ qs_freed s = []⌝
  | Some (bs, al) => ∃ t, ⌜cs = Some t ∧ geo bs al⌝ ∗ allocR bs al t (qs_blocks s) (qs_freed s) (qs_own s)
  end.

Lemma pool_cells_NoDup bs p : NoDup (pool_cells bs p).
Proof. apply (region_cells_NoDup p (RWords _)). Qed.
Lemma pool_cells_in bs al p k : geo bs al → k ∈ pool_cells bs p → p ≤ k < p + bs.
Proof.
  intros HG Hk. apply elem_of_list_fmap in Hk as (i & -> & Hi). apply elem_of_seq in Hi.
  pose proof (nw_bs _ _ HG). lia.
Qed.
Lemma unknown_is_Some l k : k ∈ l → is_Some (unknown l !! k).
Proof.
  intros Hk. destruct (unknown l !! k) eqn:E; [by eexists|]. exfalso. apply not_elem_of_list_to_map_2 in E.
  apply E, elem_of_list_fmap. exists (k, None). split; [done|]. apply elem_of_list_fmap. by exists k.
Qed.

Lemma NoDup_bind (l : list Z) (f : Z → list Z) :
  (∀ x y k, x ∈ l → y ∈ l → k ∈ f x → k ∈ f y → x = y) → (∀ x, x ∈ l → NoDup (f x)) → NoDup l → NoDup (l ≫= f).
Proof.
  intros Hinj Hf Hnd. induction Hnd as [|x l Hx Hnd IH]; [constructor|]. rewrite bind_cons. apply NoDup_app. split_and!.
  - apply Hf. by left.
  - intros k Hk (y & Hky & Hy)%elem_of_list_bind. apply Hx. by rewrite (Hinj x y k ltac:(by left) ltac:(by right) Hk Hky).
  - apply IH; [|intros; apply Hf; by right]. intros y z k Hy Hz. apply Hinj; by right.
Qed.

Lemma pool_ok K0 : part_ok K0 pool_part.
Proof.
  refine (PartOk K0 pool_part poolR _ _ _ _); simpl.
  - intros m _. iIntros "_". rewrite /poolR /=. done.
  - intros m _ a Ha. by apply elem_of_nil in Ha.
  - iIntros (cs s int) "[-> _]". done.
  - iIntros (G [ws bl] X int cs s o Φ Henv HK Hpre Hd1 Hd2 Hd3) "Hw [-> HR] Hc HΦ". simpl in *.
    assert (Hd : qs_own s ##ₘ bl ∪ X) by by apply map_disjoint_union_r.
    destruct o; simpl in Hpre.
    + pose proof (init_geo bs al (PState None ∅ [] (qs_own s) ∅) Hpre) as HG. destruct Hpre as (Ho & Hb & Ha & Hm & _). simpl in Ho.
      pose proof (real_size_facts bs al Hb Ha Hm) as (H1 & H2 & _). rewrite /pstep. wp_ret.
      iApply ("HΦ" $! _ _ (CMem ws bl) (QState (Some (real_size bs al, real_align al)) ∅ [] ∅) ∅ with "[] [] Hw [] [Hc]").
      * done.
      * iPureIntro. simpl. split; [apply map_disjoint_empty_l|]. split; [apply map_disjoint_empty_l|done].
      * iSplit; [done|]. simpl. iExists _. iSplit; [done|]. by iApply allocR_init.
      * by rewrite Ho.
    + destruct Hpre as [[bs al] Hcfg]. rewrite Hcfg. iDestruct "HR" as (t [-> HG]) "Ha".
      rewrite /pstep. wp_bind. iApply (wp_alloc_block bs al HG Henv with "Ha Hc"); [done|].
      iIntros (p t' own' Hp Hd' Hre Hseg) "Ha Hc Hbl". wp_ret. simpl.
      iDestruct (allocR_facts bs al HG with "Ha") as %(_ & _ & _ & _ & [Hok _] & Hin & Hap).
      iDestruct (wordsR_unknown (pool_cells bs p) with "Hbl") as "Hn". iDestruct (wordsR_disjoint with "Hn Hw") as %Hdj.
      apply map_disjoint_union_r in Hd' as [Hd1' Hd2'].
      iApply ("HΦ" $! _ _ (CMem _ bl) (QState (qs_cfg s) ({[p]} ∪ qs_blocks s) (tail (qs_freed s)) own') own' with "[] [] [Hn Hw] [Ha] Hc").
      * iPureIntro. exists bs, al, p, own'. split; [done|]. split; [done|]. split; [done|].
        destruct (Hin p ltac:(set_solver)) as (H0 & Hmod & b & r & Hb & Hb1 & Hb2). destruct (Hok _ _ Hb).
        split; [done|]. split; [done|]. split; [lia|]. split. { intros q Hq. apply Hap; [set_solver..|]. by intros ->. }
        split; [|done]. intros k Hk. destruct (ws !! k) as [v|] eqn:Hv; [|done]. exfalso.
        destruct (unknown_is_Some _ _ Hk) as [u Hu]. rewrite map_disjoint_spec in Hdj. by eapply Hdj.
      * done.
      * iApply (wordsR_union with "Hn Hw").
      * iSplit; [done|]. simpl. rewrite Hcfg. iExists t'. iSplit; [done|]. iExact "Ha".
    + destruct Hpre as (bs & al & Hcfg & Hp & Hcells). rewrite Hcfg. iDestruct "HR" as (t [-> HG]) "Ha".
      iDestruct (wordsR_take with "Hw") as "[Hn Hw]"; [apply (pool_cells_NoDup bs p)|exact Hcells|].
      rewrite /pstep. wp_bind. iApply (wp_free_block bs al HG Henv with "Ha [Hn]"); [done|iExact "Hn"|].
      iIntros (t') "Ha". wp_ret.
      iApply ("HΦ" $! _ _ (CMem _ bl) (QState (qs_cfg s) (qs_blocks s ∖ {[p]}) (p :: qs_freed s) (qs_own s)) (qs_own s) with "[] [] Hw [Ha] Hc").
      * iPureIntro. by exists bs, al.
      * done.
      * iSplit; [done|]. simpl. rewrite Hcfg. iExists t'. iSplit; [done|]. iExact "Ha".
    + destruct Hpre as [[bs al] Hcfg]. rewrite Hcfg. iDestruct "HR" as (t [-> HG]) "Ha".
      iDestruct (allocR_facts bs al HG with "Ha") as %(H1 & H2 & H3 & H4 & _).
      rewrite /pstep. wp_ret. pose proof (geo_bs _ _ HG).
      iApply ("HΦ" $! _ _ (CMem ws bl) s (qs_own s) with "[] [] Hw [Ha] Hc").
      * iPureIntro. exists bs, al. split; [done|]. split; [|done]. f_equal.
        rewrite /allocator_memory_usage /wrap H1 H3 Z.mod_small //. lia.
      * done.
      * iSplit; [done|]. rewrite Hcfg. iExists t. iSplit; [done|]. iExact "Ha".
    + done.
    + done.
    + destruct Hpre as (bs & al & Hcfg & Hcells). rewrite Hcfg. iDestruct "HR" as (t [-> HG]) "Ha".
      iDestruct (allocR_facts bs al HG with "Ha") as %(_ & _ & _ & _ & _ & _ & Hap).
      assert (Hnd : NoDup (elements (qs_blocks s) ≫= pool_cells bs)).
      { apply NoDup_bind.
        - intros p q k Hp%elem_of_elements Hq%elem_of_elements Hk1 Hk2.
          apply (pool_cells_in _ _ _ _ HG) in Hk1, Hk2. destruct (decide (p = q)) as [|Hn]; [done|].
          pose proof (Hap _ _ Hp Hq Hn) as Hx. rewrite /apart in Hx. lia.
        - intros p _. apply pool_cells_NoDup.
        - apply NoDup_elements. }
      iDestruct (wordsR_take with "Hw") as "[Hn Hw]"; [exact Hnd| |].
      { intros k (p & Hk & Hp)%elem_of_list_bind. apply elem_of_elements in Hp. by eapply Hcells. }
      rewrite /pstep. wp_bind. iApply (wp_allocator_done bs al HG with "Ha [Hn] Hc"); [done| |].
      { rewrite big_sepS_elements -big_sepL_bind. iExact "Hn". }
      iIntros (t') "Ha Hc". wp_ret.
      iApply ("HΦ" $! _ _ (CMem _ bl) (QState (qs_cfg s) ∅ [] ∅) ∅ with "[] [] Hw [Ha] [Hc]").
      * iPureIntro. by exists bs, al.
      * iPureIntro. simpl. split; [apply map_disjoint_empty_l|]. split; [apply map_disjoint_empty_l|done].
      * iSplit; [done|]. simpl. rewrite Hcfg. iExists t'. iSplit; [done|]. iExact "Ha".
      * by rewrite left_id_L.
Qed.
