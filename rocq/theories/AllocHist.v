(** * History theorem of the allocator and its consequences. *)
From Verif Require Export AllocProof ArrayProps.
Global Open Scope Z_scope.

(** ** Configurations *)
Lemma real_size_facts bs al : 1 ≤ bs → (al < 8 ∨ al mod 8 = 0) → 8 + real_align al + real_size bs al < 2 ^ 64 →
  let t := allocator_init bs al in
  al_block_size t = real_size bs al ∧ al_align_size t = real_align al ∧
  0 < real_align al ∧ real_align al mod 8 = 0 ∧ bs ≤ real_size bs al < bs + real_align al ∧
  real_size bs al mod real_align al = 0 ∧ real_size bs al mod 8 = 0.
Proof.
  intros Hb Ha Hm t. set (k := real_align al) in *.
  assert (Hk : 8 ≤ k) by (rewrite /k /real_align; lia).
  assert (Hk8 : k mod 8 = 0).
  { rewrite /k /real_align. destruct (Z.max_spec 8 al) as [[? ->]|[? ->]]; [|done]. destruct Ha; [lia|done]. }
  assert (Hrs : real_size bs al = k * ((bs + k - 1) / k)) by done.
  pose proof (Z.div_mod bs k ltac:(lia)) as Hdm. pose proof (Z.mod_pos_bound bs k ltac:(lia)) as Hmb.
  set (q := bs / k) in *. set (r := bs mod k) in *.
  assert (Hsz : real_size bs al = if decide (r ≠ 0) then bs + (k - r) else bs).
  { rewrite Hrs. destruct (decide (r ≠ 0)).
    - rewrite -(Z.div_unique (bs + k - 1) k (q + 1) (r - 1)); [|lia|lia]. lia.
    - rewrite -(Z.div_unique (bs + k - 1) k q (k - 1)); [|lia|lia]. lia. }
  assert (Hmod : real_size bs al mod k = 0) by (rewrite Hrs Z.mul_comm; apply Z.mod_mul; lia).
  split_and!.
  - rewrite /t /allocator_init /=.
    assert ((if decide (al < 8) then 8 else al) = k) as ->. { rewrite /k /real_align. destruct (decide (al < 8)); lia. }
    rewrite Hsz. change (bs mod k) with r. destruct (decide (r ≠ 0)); [|done].
    rewrite /sub64 /add64 (Z.mod_small (k - r)); [|lia]. apply Z.mod_small. lia.
  - rewrite /t /allocator_init /= /k /real_align. destruct (decide (al < 8)); lia.
  - lia.
  - done.
  - rewrite Hsz. destruct (decide (r ≠ 0)); lia.
  - rewrite Hsz. destruct (decide (r ≠ 0)); lia.
  - done.
  - apply Z.mod_divide; [lia|]. apply Z.divide_trans with k; apply Z.mod_divide; done || lia.
Qed.

Lemma init_geo bs al s : ppre s (PInit bs al) → geo (real_size bs al) (real_align al).
Proof.
  intros (_ & Hb & Ha & Hm & Hf). pose proof (real_size_facts bs al Hb Ha Hm) as (_ & _ & H1 & H2 & H3 & H4 & H5).
  constructor; try done; lia.
Qed.

(** ** Histories *)
Section hist.
  Context `{!memG}.
  Hypothesis Henv : memG_env.

  Definition contents (p : Z) (vs : list (option Z)) : iProp :=
    [∗ list] j ↦ v ∈ vs, (p + 8 * Z.of_nat j) ↦ word_cell v.
  Definition PR (cs : option allocator) (s : pstate) : iProp :=
    match ps_cfg s with
    | None => ⌜cs = None ∧ ps_own s = ∅ ∧ ps_blocks s = ∅ ∧ ps_freed s = []⌝ ∗ hctl (ps_live s)
    | Some (bs, al) => ∃ t, ⌜cs = Some t ∧ geo bs al ∧ ps_own s ##ₘ ps_live s⌝ ∗
        allocR bs al t (dom (ps_blocks s)) (ps_freed s) (ps_own s) ∗ hctl (ps_own s ∪ ps_live s) ∗
        [∗ map] p ↦ vs ∈ ps_blocks s, ⌜length vs = Z.to_nat (bs / 8)⌝ ∗ contents p vs
    end.

  Lemma word_cell_wordcell v : wordcell (word_cell v).
  Proof. destruct v; simpl; [right; by eexists|by left]. Qed.
  Lemma blockR_contents_gen n : ∀ p, ([∗ list] k ∈ wcells p n, anyword k) ⊢ ∃ vs, ⌜length vs = n⌝ ∗ contents p vs.
  Proof.
    induction n as [|n IH]; intros p; [iIntros "_"; iExists []; rewrite /contents /=; auto|].
    replace (S n) with (n + 1)%nat by lia. rewrite wcells_app big_sepL_app IH. iIntros "[(%vs & <- & Hc) [H _]]".
    iDestruct "H" as (c [->|[z ->]]) "Hk".
    - iExists (vs ++ [None]). rewrite app_length. iSplit; [done|]. rewrite /contents big_sepL_app. iFrame. simpl. rewrite Nat.add_0_r Z.add_0_r. iFrame.
    - iExists (vs ++ [Some z]). rewrite app_length. iSplit; [done|]. rewrite /contents big_sepL_app. iFrame. simpl. rewrite Nat.add_0_r Z.add_0_r. iFrame.
  Qed.
  Lemma contents_blockR_gen vs p : contents p vs ⊢ [∗ list] k ∈ wcells p (length vs), anyword k.
  Proof.
    induction vs as [|v vs IH] using rev_ind; [by iIntros "_"|]. rewrite app_length wcells_app /contents !big_sepL_app.
    iIntros "[H1 [H2 _]]". iSplitL "H1"; [by iApply IH|]. simpl. iSplit; [|done]. rewrite Nat.add_0_r Z.add_0_r.
    iExists _. iFrame. iPureIntro. apply word_cell_wordcell.
  Qed.

  Lemma PR_pwf t s bs al : geo bs al → ps_own s ##ₘ ps_live s →
    allocR bs al t (dom (ps_blocks s)) (ps_freed s) (ps_own s) -∗
    ([∗ map] p ↦ vs ∈ ps_blocks s, ⌜length vs = Z.to_nat (bs / 8)⌝ ∗ contents p vs) -∗ ⌜pwf bs al s⌝.
  Proof.
    iIntros (HG Hd) "Ha Hb". iDestruct (allocR_facts bs al HG with "Ha") as %(_ & _ & _ & _ & Hok & Hin & Hap).
    iAssert (⌜∀ p vs, ps_blocks s !! p = Some vs → length vs = Z.to_nat (bs / 8)⌝)%I as %Hlen.
    { iIntros (p vs Hp). iDestruct (big_sepM_lookup with "Hb") as "[%Hl _]"; done. }
    iPureIntro. split; [done|]. split; [by apply Hok|]. split.
    - intros p vs Hp. assert (Hpd : p ∈ dom (ps_blocks s)) by (apply elem_of_dom; by eexists).
      destruct (Hin _ Hpd) as (H0 & H1 & H2). split; [done|]. split; [done|]. split; [|done].
      rewrite (Hlen _ _ Hp). by apply (nw_bs _ al).
    - intros p q vs ws Hp Hq. apply Hap; apply elem_of_dom; by eexists.
  Qed.

  Lemma wp_pstep cs s o Φ : ppre s o →
    PR cs s -∗ (∀ cs' a s', ⌜ppost s o a s'⌝ -∗ PR cs' s' -∗ Φ (cs', a)) -∗ wp (pstep cs o) Φ.
  Proof.
    iIntros (Hpre) "HR HΦ". destruct o.
    - (* init *)
      pose proof (init_geo _ _ _ Hpre) as HG. destruct Hpre as (Ho & Hb & Ha & Hm & _).
      pose proof (real_size_facts bs al Hb Ha Hm) as (H1 & H2 & _).
      iAssert (hctl (ps_live s)) with "[HR]" as "Hc".
      { rewrite /PR. destruct (ps_cfg s) as [[bs' al']|]; [|by iDestruct "HR" as "[_ $]"].
        iDestruct "HR" as (t) "(_ & _ & Hc & _)". by rewrite Ho left_id_L. }
      rewrite /pstep. wp_ret. iApply ("HΦ" with "[//]"). rewrite /PR /=. iExists _.
      iSplit; [iPureIntro; split; [done|split; [done|apply map_disjoint_empty_l]]|].
      rewrite left_id_L dom_empty_L big_sepM_empty. iFrame. by iApply allocR_init.
    - (* alloc *)
      destruct Hpre as [[bs al] Hcfg]. rewrite /PR Hcfg. iDestruct "HR" as (t (-> & HG & Hd)) "(Ha & Hc & Hb)".
      rewrite /pstep. wp_bind. iApply (wp_alloc_block bs al HG Henv with "Ha Hc"); [done|].
      iIntros (p t' own' Hp Hd' Hre Hseg) "Ha Hc Hbl". wp_ret. simpl.
      rewrite /blockR. iDestruct (blockR_contents_gen with "Hbl") as (vs Hvs) "Hbl".
      set (s' := PState (ps_cfg s) (<[p := vs]> (ps_blocks s)) (tail (ps_freed s)) own' (ps_live s)).
      assert (Hnone : ps_blocks s !! p = None) by by apply not_elem_of_dom.
      iAssert ([∗ map] p ↦ vs ∈ ps_blocks s', ⌜length vs = Z.to_nat (bs / 8)⌝ ∗ contents p vs)%I with "[Hb Hbl]" as "Hb".
      { simpl. rewrite big_sepM_insert //. by iFrame. }
      iAssert (allocR bs al t' (dom (ps_blocks s')) (ps_freed s') (ps_own s')) with "[Ha]" as "Ha".
      { simpl. by rewrite dom_insert_L. }
      iDestruct (PR_pwf t' s' bs al HG with "Ha Hb") as %Hwf; [done|].
      iApply ("HΦ" $! _ _ s').
      { iPureIntro. rewrite size_dom in Hseg. exists bs, al, p, vs, own'. split_and!; try done. }
      rewrite /s' /= Hcfg. iExists t'. iFrame. done.
    - (* free *)
      destruct Hpre as [vs Hp]. rewrite /PR. destruct (ps_cfg s) as [[bs al]|] eqn:Hcfg.
      2:{ iDestruct "HR" as "[(_ & _ & %Hb & _) _]". by rewrite Hb lookup_empty in Hp. }
      iDestruct "HR" as (t (-> & HG & Hd)) "(Ha & Hc & Hb)".
      rewrite (big_sepM_delete _ _ p) //. iDestruct "Hb" as "[[%Hl Hp] Hb]".
      rewrite /pstep. wp_bind. iApply (wp_free_block bs al HG Henv with "Ha [Hp]").
      { apply elem_of_dom. by eexists. }
      { rewrite /blockR -Hl. by iApply contents_blockR_gen. }
      iIntros (t') "Ha". wp_ret. iApply ("HΦ" with "[//]"). simpl. rewrite Hcfg. iExists t'. rewrite dom_delete_L. by iFrame.
    - (* memory_usage *)
      destruct Hpre as [[bs al] Hcfg]. rewrite /PR Hcfg. iDestruct "HR" as (t (-> & HG & Hd)) "(Ha & Hc & Hb)".
      iDestruct (allocR_facts bs al HG with "Ha") as %(H1 & H2 & H3 & H4 & _).
      rewrite /pstep. wp_ret. rewrite size_dom in H3, H4. pose proof (geo_bs _ _ HG).
      iApply ("HΦ" $! _ _ s). { iPureIntro. exists bs, al. split; [done|]. split; [|done]. f_equal.
        rewrite /allocator_memory_usage /wrap H1 H3 Z.mod_small //. lia. }
      rewrite Hcfg. iExists t. by iFrame.
    - (* read *)
      destruct Hpre as (b & vs & j & v & Hb & -> & Hv). rewrite /PR. destruct (ps_cfg s) as [[bs al]|] eqn:Hcfg.
      2:{ iDestruct "HR" as "[(_ & _ & %He & _) _]". by rewrite He lookup_empty in Hb. }
      iDestruct "HR" as (t (-> & HG & Hd)) "(Ha & Hc & Hbs)". rewrite /pstep. wp_bind.
      iDestruct (big_sepM_lookup_acc with "Hbs") as "[[%Hl Hbl] Hbs]"; [done|].
      iDestruct (big_sepL_lookup_acc with "Hbl") as "[Hk Hbl]"; [done|]. simpl.
      iApply (wp_load with "Hk"). iIntros "Hk". wp_ret.
      iApply ("HΦ" $! _ _ s). { iPureIntro. by exists b, vs, j, v. }
      rewrite Hcfg. iExists t. iFrame. iSplit; [done|]. iApply "Hbs". iSplit; [done|]. by iApply "Hbl".
    - (* write *)
      destruct Hpre as (b & vs & j & Hb & -> & Hv). rewrite /PR. destruct (ps_cfg s) as [[bs al]|] eqn:Hcfg.
      2:{ iDestruct "HR" as "[(_ & _ & %He & _) _]". by rewrite He lookup_empty in Hb. }
      iDestruct "HR" as (t (-> & HG & Hd)) "(Ha & Hc & Hbs)". rewrite /pstep. wp_bind.
      iDestruct (big_sepM_insert_acc with "Hbs") as "[[%Hl Hbl] Hbs]"; [done|].
      destruct (lookup_lt_is_Some_2 _ _ Hv) as [v0 Hv0].
      iDestruct (big_sepL_insert_acc with "Hbl") as "[Hk Hbl]"; [done|]. simpl.
      iApply (wp_store with "Hk"); [apply word_cell_wordcell|]. iIntros "Hk". wp_ret.
      iApply "HΦ". { iPureIntro. by exists b, vs, j. }
      simpl. rewrite Hcfg. iExists t. rewrite dom_insert_lookup_L; [|by eexists]. iFrame. iSplit; [done|].
      iApply "Hbs". iSplit; [by rewrite insert_length|]. by iApply ("Hbl" $! (Some v)).
    - (* done *)
      destruct Hpre as [[bs al] Hcfg]. rewrite /PR Hcfg. iDestruct "HR" as (t (-> & HG & Hd)) "(Ha & Hc & Hb)".
      rewrite /pstep. wp_bind. iApply (wp_allocator_done bs al HG with "Ha [Hb] Hc"); [done| |].
      { rewrite -big_sepM_dom. iApply (big_sepM_mono with "Hb"). iIntros (p vs Hp) "[%Hl Hc]".
        rewrite /blockR -Hl. by iApply contents_blockR_gen. }
      iIntros (t') "Ha Hc". wp_ret. iApply ("HΦ" with "[//]"). simpl. rewrite Hcfg. iExists t'.
      rewrite left_id_L dom_empty_L big_sepM_empty. iFrame. iPureIntro.
      split; [done|]. split; [done|]. apply map_disjoint_empty_l.
  Qed.
End hist.

Lemma alloc_history live m c :
  heap_live m live → allowed ppre ppost (pstate0 live) c →
  safe (run pstep None c m) (λ r m', alloc_end live r.1 r.2 m' ∧ unchanged_outside [HCTL] m m').
Proof.
  intros (h & Hh & <-) Ha.
  assert (Hok : client_ok 4 ∅ [HCTL] m).
  { split; [apply map_Forall_empty|]. split; [apply NoDup_singleton|]. intros a Ha'. by apply elem_of_nil in Ha'. }
  pose proof (client_adequacy True (run pstep None c) 4 ∅ [HCTL] m
    (λ r m', alloc_end (hc_live h) r.1 r.2 m') Hok) as Had.
  assert (Hgoal : match run pstep None c m with
    | Ok v m' => alloc_end (hc_live h) v.1 v.2 m' ∧ unchanged_outside ([HCTL] ++ objs_cells ∅) m m'
    | Env _ => True | _ => False end); [|exact Hgoal].
  apply Had.
  { intros a Ha'. set_unfold in Ha'. destruct Ha' as [->|[]]; eauto. }
  clear Had. intros HG HE _.
  assert (Henv : memG_env) by (rewrite HE; done).
  iIntros "(Hc & _) _".
  iApply (wp_run _ _ _ PR with "[Hc]").
  - intros. iIntros "HR HΦ". by iApply (wp_pstep Henv with "HR HΦ").
  - exact Ha.
  - rewrite /PR /=. iSplit; [done|].
    iDestruct "Hc" as (c0 Hc0) "Hc". simplify_eq. iExists (hc_oracle h), (hc_next h). by destruct h.
  - iIntros (cs tr s' Hcor) "HR". iIntros (m') "Hm". rewrite /alloc_end /PR /=.
    destruct (ps_cfg s') as [[bs al]|] eqn:Hcfg.
    + iDestruct "HR" as (t (-> & HGeo & Hd)) "(Ha & (%o & %n & Hc) & Hb)".
      iDestruct (memI_lookup with "Hm Hc") as %Hl.
      iDestruct (allocR_facts bs al HGeo with "Ha") as %(H1 & H2 & _).
      iAssert (⌜∀ (p : Z) vs j v, ps_blocks s' !! p = Some vs → vs !! j = Some v → m' !! (p + 8 * Z.of_nat j)%Z = Some (word_cell v)⌝)%I as %Hmem.
      { iIntros (p vs j v Hp Hj). iDestruct (big_sepM_lookup with "Hb") as "[_ He]"; [done|].
        iDestruct (big_sepL_lookup with "He") as "He"; [done|]. iApply (memI_lookup with "Hm He"). }
      iPureIntro. exists s'. split; [exact Hcor|]. split; [by eexists|]. split; [done|]. split; [done|]. rewrite Hcfg. by exists t.
    + iDestruct "HR" as "((-> & %Ho & %Hb & %Hf) & (%o & %n & Hc))". iDestruct (memI_lookup with "Hm Hc") as %Hl.
      iPureIntro. exists s'. split; [exact Hcor|]. rewrite Ho Hb left_id_L Hcfg. split; [by eexists|]. split; [apply map_disjoint_empty_l|]. split; [|done].
      intros p vs j v Hp. by rewrite lookup_empty in Hp.
Qed.

(** ** Consequences *)
Notation pcorrect live := (correct ppost (pstate0 live)).

Definition pshape (tr : list (pop * pout)) (s : pstate) : Prop :=
  held tr = dom (ps_blocks s) ∧
  match ps_cfg s with
  | None => ps_blocks s = ∅
  | Some (bs, al) => config tr = (bs, al) ∧ pwf bs al s
  end.

Lemma held_snoc tr x : held (tr ++ [x]) = held_step (held tr) x.
Proof. rewrite /held foldl_app //. Qed.
Lemma config_snoc tr o a : (∀ bs al, o ≠ PInit bs al) → config (tr ++ [(o, a)]) = config tr.
Proof. intros Ho. rewrite /config foldl_app /=. destruct o; try done. by destruct (Ho bs al). Qed.
Lemma config_init tr bs al a : config (tr ++ [(PInit bs al, a)]) = (real_size bs al, real_align al).
Proof. by rewrite /config foldl_app. Qed.

Lemma pwf_empty bs al cfg fr live : pwf bs al (PState cfg ∅ fr ∅ live).
Proof.
  split; [apply map_disjoint_empty_l|]. simpl. split; [intros ? ? ? ?; by rewrite lookup_empty|].
  split; [intros ? ?; by rewrite lookup_empty|intros ? ? ? ?; by rewrite lookup_empty].
Qed.

Lemma pcorrect_live live tr s : pcorrect live tr s → ps_live s = live.
Proof.
  revert s. induction tr as [|[o a] tr IH] using rev_ind; intros s Hc; [by inversion Hc|].
  apply correct_snoc_inv in Hc as (s' & Hc & Hp). rewrite -(IH _ Hc). destruct o; simpl in Hp; naive_solver.
Qed.

Lemma pshape_ok live tr s : pcorrect live tr s → pshape tr s.
Proof.
  revert s. induction tr as [|[o a] tr IH] using rev_ind; intros s Hc.
  { inversion Hc; subst. split; [symmetry; apply dom_empty_L|done]. }
  apply correct_snoc_inv in Hc as (s' & Hc & Hp). specialize (IH _ Hc) as [IH1 IH2]. rewrite /pshape held_snoc.
  destruct o; simpl in Hp.
  - destruct Hp as [-> ->]. rewrite config_init. simpl. rewrite dom_empty_L. split; [done|]. split; [done|apply pwf_empty].
  - destruct Hp as (bs & al & p & vs & own & Hcfg & -> & Hn & -> & Hwf & _). rewrite config_snoc //. simpl.
    rewrite Hcfg in IH2 |- *. rewrite dom_insert_L IH1. split; [done|]. destruct IH2 as [-> _]. split; [done|]. by rewrite Hcfg in Hwf.
  - destruct Hp as [-> ->]. rewrite config_snoc //. simpl. rewrite dom_delete_L IH1. split; [done|].
    destruct (ps_cfg s') as [[bs al]|]; [|by rewrite IH2 delete_empty]. destruct IH2 as [-> (H1 & H2 & H3 & H4)].
    split; [done|]. split; [done|]. split; [done|]. simpl. split.
    + intros q vs [_ Hq]%lookup_delete_Some. by apply H3.
    + intros q q' vs ws [_ Hq]%lookup_delete_Some [_ Hq']%lookup_delete_Some. by eapply H4.
  - destruct Hp as (bs & al & Hcfg & -> & ->). rewrite config_snoc //.
  - destruct Hp as (b & vs & j & v & _ & _ & _ & -> & ->). rewrite config_snoc //.
  - destruct Hp as (b & vs & j & Hb & -> & Hj & -> & ->). rewrite config_snoc //. simpl.
    rewrite dom_insert_lookup_L; [|by eexists]. split; [done|].
    destruct (ps_cfg s') as [[bs al]|]; [|by rewrite IH2 lookup_empty in Hb]. destruct IH2 as [-> (H1 & H2 & H3 & H4)].
    split; [done|]. split; [done|]. split; [done|]. simpl.
    assert (Hback : ∀ q ws, <[b := <[j := Some v]> vs]> (ps_blocks s') !! q = Some ws →
      ∃ ws', ps_blocks s' !! q = Some ws' ∧ length ws' = length ws).
    { intros q ws [[<- <-]|[_ Hq]]%lookup_insert_Some; [exists vs; by rewrite insert_length|by exists ws]. }
    split.
    + intros q ws (ws' & Hq & <-)%Hback. by apply H3.
    + intros q q' ws xs (ws' & Hq & _)%Hback (xs' & Hq' & _)%Hback. by eapply H4.
  - destruct Hp as [-> ->]. rewrite config_snoc //. simpl. rewrite dom_empty_L. split; [done|].
    destruct (ps_cfg s') as [[bs al]|]; [|done]. destruct IH2 as [-> _]. split; [done|apply pwf_empty].
Qed.

Lemma phist_any (Q : gmap Z region → option allocator → list (pop * pout) → mem → Prop) :
  (∀ live cs tr m', alloc_end live cs tr m' → Q live cs tr m') → after_any_alloc_history Q.
Proof.
  intros HQ live m c Hl Ha. pose proof (alloc_history live m c Hl Ha) as H.
  unfold safe in *. destruct (run pstep None c m) as [r m'| | |]; try done. apply HQ, H.
Qed.

Lemma alloc_blocks_ok : after_any_alloc_history (λ live _ tr m',
  let (bs, al) := config tr in
  (∀ p, p ∈ held tr → p mod al = 0 ∧
    ∃ blocks b r, heap_live m' blocks ∧ live ⊆ blocks ∧ live !! b = None ∧ blocks !! b = Some r ∧
      b ≤ p ∧ p + bs ≤ b + region_bytes r) ∧
  (∀ p q, p ∈ held tr → q ∈ held tr → p ≠ q → apart p bs q bs)).
Proof.
  apply phist_any. intros live cs tr m' (s & Hc & Hh & Hd & _). pose proof (pshape_ok _ _ _ Hc) as [H1 H2].
  pose proof (pcorrect_live _ _ _ Hc) as Hlv. rewrite H1. destruct (config tr) as [bs al] eqn:Hcf.
  destruct (ps_cfg s) as [[bs' al']|].
  2:{ rewrite H2 dom_empty_L. split; intros ?; set_solver. }
  destruct H2 as [[= <- <-] (W1 & W2 & W3 & W4)]. split.
  - intros p [vs Hp]%elem_of_dom. destruct (W3 _ _ Hp) as (_ & Hal & _ & b & r & Hb & Hb1 & Hb2). split; [done|].
    exists (ps_own s ∪ ps_live s), b, r. split; [done|]. rewrite -Hlv. split; [by apply map_union_subseteq_r|].
    split; [by eapply map_disjoint_Some_l|]. split; [by apply lookup_union_Some_l|]. done.
  - intros p q [vs Hp]%elem_of_dom [ws Hq]%elem_of_dom. by eapply W4.
Qed.

Lemma alloc_fresh : after_any_alloc_history (λ _ _ tr _, ∀ tr0 a tr1,
  tr = tr0 ++ (PAlloc, a) :: tr1 → ∃ p, a = POWord p ∧ p ∉ held tr0).
Proof.
  apply phist_any. intros live cs tr m' (s & Hc & _) tr0 a tr1 ->.
  apply correct_app in Hc as (s1 & Hc1 & Hc2). inversion Hc2 as [|? ? ? s2 ? ? Hp Hc3]; subst.
  pose proof (pshape_ok _ _ _ Hc1) as [H1 _]. destruct Hp as (bs & al & p & vs & own & _ & -> & Hn & _).
  exists p. split; [done|]. rewrite H1. by apply not_elem_of_dom.
Qed.

Lemma alloc_usage : after_any_alloc_history (λ _ _ tr _, ∀ tr0 a tr1,
  tr = tr0 ++ (PUsage, a) :: tr1 → a = POWord (Z.of_nat (size (held tr0)) * (config tr0).1)).
Proof.
  apply phist_any. intros live cs tr m' (s & Hc & _) tr0 a tr1 ->.
  apply correct_app in Hc as (s1 & Hc1 & Hc2). inversion Hc2 as [|? ? ? s2 ? ? Hp Hc3]; subst.
  pose proof (pshape_ok _ _ _ Hc1) as [H1 H2]. destruct Hp as (bs & al & Hcfg & -> & ->). rewrite Hcfg in H2. destruct H2 as [-> _].
  by rewrite H1 size_dom.
Qed.

(** Operations that neither allocate nor free *)
Definition is_access (x : pop * pout) : Prop := match x.1 with PUsage | PRead _ | PWrite _ _ => True | _ => False end.

Lemma access_freed s tr s' : correct ppost s tr s' → Forall is_access tr → ps_freed s' = ps_freed s ∧ ps_own s' = ps_own s.
Proof.
  induction 1 as [|s o a s1 tr s2 Hp Hc IH]; [done|]. intros [Ho HF]%Forall_cons. destruct (IH HF) as [-> ->].
  destruct o; simpl in Hp; try done; naive_solver.
Qed.

Lemma alloc_reuse : after_any_alloc_history (λ _ _ tr _, ∀ tr0 p x tr1 a tr2,
  tr = tr0 ++ (PFree p, x) :: tr1 ++ (PAlloc, a) :: tr2 → Forall is_access tr1 → a = POWord p).
Proof.
  apply phist_any. intros live cs tr m' (s & Hc & _) tr0 p x tr1 a tr2 -> HF.
  apply correct_app in Hc as (s1 & Hc1 & Hc2). inversion Hc2 as [|? ? ? s2 ? ? Hp Hc3]; subst.
  apply correct_app in Hc3 as (s3 & Hc3 & Hc4). inversion Hc4 as [|? ? ? s4 ? ? Hp2 _]; subst.
  destruct (access_freed _ _ _ Hc3 HF) as [Hf _]. destruct Hp as [-> ->]. simpl in Hf.
  destruct Hp2 as (bs & al & q & vs & own & _ & -> & _ & _ & _ & Hre & _). rewrite Hf in Hre.
  by destruct (Hre p eq_refl) as [-> _].
Qed.

Lemma alloc_done_heap : after_any_alloc_history (λ live _ tr m', ∀ tr0 a,
  tr = tr0 ++ [(PDone, a)] → heap_live m' live).
Proof.
  apply phist_any. intros live cs tr m' (s & Hc & Hh & _) tr0 a ->. pose proof (pcorrect_live _ _ _ Hc) as Hlv.
  apply correct_snoc_inv in Hc as (s1 & _ & Hp). destruct Hp as [_ ->]. simpl in *. by rewrite left_id_L Hlv in Hh.
Qed.

(** Blocks held at once and segments *)
Definition few_blocks (bs al : Z) : Z := (segment_size bs al - al) / bs.
Lemma few_le bs al a : 0 ≤ bs → 0 < al → few_blocks bs al ≤ segment_blocks bs al a.
Proof.
  intros Hb Ha. rewrite /few_blocks /segment_blocks. pose proof (Z.mod_pos_bound (- (a + 8)) al Ha) as Hp.
  rewrite -/(padding al a) in Hp. destruct (decide (bs = 0)) as [->|]; [by rewrite !Zdiv_0_r|]. apply Z.div_le_mono; lia.
Qed.
Lemma few_total bs al own : 0 ≤ bs → 0 < al → Z.of_nat (size own) * few_blocks bs al ≤ total_blocks bs al own.
Proof.
  intros Hb Ha. rewrite /total_blocks -(size_dom own). unfold size, set_size. simpl.
  induction (elements (dom own)) as [|a l IH]; simpl; [lia|]. pose proof (few_le bs al a Hb Ha). lia.
Qed.
Lemma peak_held tr : (foldl peak_step (∅, 0) tr).1 = held tr.
Proof. induction tr as [|x tr IH] using rev_ind; [done|]. by rewrite held_snoc foldl_app /= IH. Qed.
Lemma peak_snoc tr x : peak (tr ++ [x]) =
  match x.1 with PInit _ _ | PDone => 0 | _ => Z.max (peak tr) (Z.of_nat (size (held (tr ++ [x])))) end.
Proof. rewrite /peak foldl_app /= peak_held held_snoc. done. Qed.

Definition pfew (tr : list (pop * pout)) (s : pstate) : Prop :=
  match ps_cfg s with
  | None => ps_own s = ∅
  | Some (bs, al) => 0 < al ∧
      (ps_own s = ∅ ∨ (Z.of_nat (size (ps_own s)) - 1) * few_blocks bs al < peak tr) ∧
      ∀ b r, ps_own s !! b = Some r → r = RWords (Z.to_nat (segment_size bs al / 8))
  end.
Lemma pfew_mono tr x s s' : pfew tr s → ps_cfg s' = ps_cfg s → ps_own s' = ps_own s →
  match x.1 with PInit _ _ | PDone => False | _ => True end → pfew (tr ++ [x]) s'.
Proof.
  rewrite /pfew => H -> -> Hx. destruct (ps_cfg s) as [[bs al]|]; [|done].
  assert (peak tr ≤ peak (tr ++ [x])) by (rewrite peak_snoc; destruct x as [[]]; simpl in *; lia || done).
  destruct H as (Ha & Hor & Hr). split; [done|]. split; [|done]. destruct Hor; [by left|right; lia].
Qed.
Lemma pfew_ok live tr s : pcorrect live tr s → pfew tr s.
Proof.
  revert s. induction tr as [|[o a] tr IH] using rev_ind; intros s Hc; [by inversion Hc|].
  pose proof (pshape_ok _ _ _ Hc) as [Hheld _].
  apply correct_snoc_inv in Hc as (s' & Hc & Hp). pose proof (IH _ Hc) as Hf. destruct o; simpl in Hp.
  - destruct Hp as [-> ->]. rewrite /pfew /=. split; [rewrite /real_align; lia|]. split; [by left|]. intros b r. by rewrite lookup_empty.
  - destruct Hp as (bs & al & p & vs & own & Hcfg & -> & Hn & -> & Hwf & _ & [[-> _]|[Hsz (b & Hb & ->)]]); [by eapply pfew_mono|].
    rewrite /pfew in Hf |- *. simpl in *. rewrite Hcfg in Hf, Hheld |- *. destruct Hf as (Ha & _ & Hr). split; [done|]. split.
    + right. rewrite map_size_insert_None //. rewrite peak_snoc /= Hheld size_dom map_size_insert_None //.
      assert (0 ≤ bs).
      { destruct Hwf as (_ & _ & Hwf & _). destruct (Hwf p vs) as (_ & _ & Hl & _); [apply lookup_insert|]. lia. }
      pose proof (few_total bs al (ps_own s') ltac:(done) Ha). lia.
    + intros b' r [[<- <-]|[_ Hb']]%lookup_insert_Some; [done|by eapply Hr].
  - destruct Hp as [-> ->]. by eapply pfew_mono.
  - destruct Hp as (bs & al & Hcfg & -> & ->). by eapply pfew_mono.
  - destruct Hp as (b & vs & j & v & _ & _ & _ & -> & ->). by eapply pfew_mono.
  - destruct Hp as (b & vs & j & Hb & -> & Hj & -> & ->). by eapply pfew_mono.
  - destruct Hp as [-> ->]. rewrite /pfew /=. rewrite /pfew in Hf. destruct (ps_cfg s') as [[bs al]|]; [|done].
    split; [apply Hf|]. split; [by left|]. intros b r. by rewrite lookup_empty.
Qed.

Lemma alloc_few : after_any_alloc_history (λ live _ tr m',
  let (bs, al) := config tr in
  ∃ blocks, heap_live m' blocks ∧ live ⊆ blocks ∧
    (blocks = live ∨
     (Z.of_nat (size blocks) - Z.of_nat (size live) - 1) * ((segment_size bs al - al) / bs) < peak tr) ∧
    ∀ b r, blocks !! b = Some r → live !! b = None → r = RWords (Z.to_nat (segment_size bs al / 8))).
Proof.
  apply phist_any. intros live cs tr m' (s & Hc & Hh & Hd & _). pose proof (pshape_ok _ _ _ Hc) as [_ H2].
  pose proof (pcorrect_live _ _ _ Hc) as Hlv. pose proof (pfew_ok _ _ _ Hc) as Hf. rewrite /pfew in Hf. rewrite Hlv in Hh, Hd.
  destruct (config tr) as [bs al] eqn:Hcf. exists (ps_own s ∪ live). split; [done|]. split; [by apply map_union_subseteq_r|].
  destruct (ps_cfg s) as [[bs' al']|].
  2:{ rewrite Hf left_id_L. split; [by left|]. intros b r. congruence. }
  destruct H2 as [[= <- <-] _]. destruct Hf as (_ & Hor & Hr). split.
  - destruct Hor as [->|Hlt]; [left; by rewrite left_id_L|right]. rewrite map_size_disj_union // Nat2Z.inj_add.
    rewrite /few_blocks in Hlt. by replace (Z.of_nat (size (ps_own s)) + Z.of_nat (size live) - Z.of_nat (size live) - 1)
      with (Z.of_nat (size (ps_own s)) - 1) by lia.
  - intros b r [Hb|[_ Hb]]%lookup_union_Some_raw Hn; [by eapply Hr|congruence].
Qed.

(** ** Which configurations fit *)

(** alignment 8, the default: a block size that divides 4032 does not fit *)
Lemma fits_align8 bs : 1 ≤ bs → bs mod 8 = 0 →
  config_fits bs 8 ↔ 4016 < bs ∨ 4032 mod bs ≠ 0.
Proof.
  intros Hb H8. assert (Hpad : ∀ a, a mod 16 = 0 → padding 8 a = 0).
  { intros a Ha. rewrite /padding. Z.div_mod_to_equations. lia. }
  split.
  - intros Hf. destruct (decide (4016 < bs)); [by left|]. right. specialize (Hf 16 ltac:(lia) eq_refl).
    rewrite /fits_at Hpad // /segment_size Z.max_l in Hf; [|lia]. rewrite Z.sub_0_r in Hf. lia.
  - intros Hor a Ha H16. rewrite /fits_at Hpad // Z.sub_0_r /segment_size.
    destruct (decide (4016 < bs)) as [Hbig|Hsmall].
    + rewrite Z.max_r; [|lia]. replace (8 + 8 + bs) with (16 + 1 * bs) by ring. rewrite Z.mod_add; [|lia]. rewrite Z.mod_small; lia.
    + rewrite Z.max_l; [|lia]. assert (Hm : (4032 mod bs) mod 8 = 0) by (apply mod_mul_8; [done|lia|done]).
      pose proof (Z.mod_pos_bound 4032 bs ltac:(lia)). destruct Hor as [|Hne]; [lia|]. Z.div_mod_to_equations. lia.
Qed.

(** alignments that are multiples of 16: fits if a segment has the default size *)
Lemma fits_align16 bs al : 1 ≤ bs → 1 ≤ al → al mod 16 = 0 → bs mod al = 0 → 8 + al + bs ≤ 4032 → config_fits bs al.
Proof.
  intros Hb Ha Ha16 Hba Hm a Ha0 H16. rewrite /fits_at /segment_size Z.max_l; [|lia].
  assert (Hd : (16 | al)) by (by apply Z.mod_divide; [lia|]). assert (Hbd : (16 | bs)).
  { apply Z.divide_trans with al; [done|]. by apply Z.mod_divide; [lia|]. }
  assert (Hmm : ∀ x n, (16 | n) → 0 < n → (x mod n) mod 16 = x mod 16).
  { intros x n [k Hk] Hn. rewrite (Z.mod_eq x n); [|lia]. rewrite {1}Hk. replace (x - k * 16 * (x / n)) with (x + (- k * (x / n)) * 16) by ring.
    by rewrite Z.mod_add. }
  assert (Hp : padding al a mod 16 = 8).
  { rewrite /padding Hmm //; [|lia]. Z.div_mod_to_equations. lia. }
  assert (Hs : ((4032 - padding al a) mod bs) mod 16 = 8).
  { rewrite Hmm //; [|lia]. Z.div_mod_to_equations. lia. }
  pose proof (Z.mod_pos_bound (4032 - padding al a) bs ltac:(lia)). Z.div_mod_to_equations. lia.
Qed.
