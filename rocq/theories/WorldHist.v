(** * Histories of a client with several containers. *)
From Verif Require Export WorldTable WorldTree WorldTrie WorldArray WorldPool.
Global Open Scope Z_scope.

Definition container_ok fuel K0 c : part_ok K0 (part_of fuel K0 c).
Proof.
  destruct c.
  - apply lift_ok; [apply list_laws|apply list_ok].
  - apply lift_ok; [apply table_laws|apply hashtable_ok].
  - apply lift_ok; [apply table_laws|apply hashdyn_ok].
  - apply lift_ok; [apply table_laws|apply hashlin_ok].
  - apply lift_ok; [apply tree_laws|apply tree_ok].
  - apply lift_ok; [apply trie_laws|apply trie_ok].
  - apply lift_ok; [apply inp_laws|apply inp_ok].
  - apply lift_ok; [apply array_laws|apply warray_ok].
  - apply lift_ok; [apply array_laws|apply warrayof_ok].
  - apply lift_ok; [apply array_laws|apply warrayblk_ok].
  - apply lift_ok; [apply array_laws|apply warrayblkof_ok].
  - apply pool_ok.
Qed.

Fixpoint world_ok fuel K0 cs : part_ok K0 (world fuel K0 cs) :=
  match cs with
  | [] => memory_ok K0
  | c :: cs => both_ok K0 _ _ (container_ok fuel K0 c) (world_ok fuel K0 cs)
  end.

Section part.
  Variable K0 : mem.
  Variable P : part.
  Variable PO : part_ok K0 P.

  Definition WR (cs : p_cst P) (s : cmem * p_sst P) : iProp :=
    ∃ int, ⌜int ##ₘ cm_blocks s.1⌝ ∗ wordsR (cm_words s.1) ∗ po_body PO cs s.2 int ∗ hctl (int ∪ cm_blocks s.1).

  Lemma wordsR_start m (ws : gmap Z (option Z)) : words_at m ws →
    ([∗ list] a ∈ elements (dom ws), ∃ c, ⌜m !! a = Some c⌝ ∗ a ↦ c) ⊢ wordsR ws.
  Proof.
    intros Hw. rewrite -big_sepS_elements -big_sepM_dom. apply big_sepM_mono. iIntros (a v Hv) "(%c & %Hc & Ha)".
    destruct (Hw _ _ Hv) as (c' & Hc' & Hwc & Hv'). simplify_eq. destruct v as [z|]; simpl.
    - by rewrite (Hv' z).
    - iExists _. by iFrame.
  Qed.
  Lemma wordsR_end `{!memG} m (ws : gmap Z (option Z)) : memI m -∗ wordsR ws -∗ ⌜words_at m ws⌝.
  Proof.
    iIntros "Hm Hw". iIntros (a v Hv). iDestruct (big_sepM_lookup with "Hw") as "Hw"; first done.
    destruct v as [z|]; simpl.
    - iDestruct (memI_lookup with "Hm Hw") as %Hl. iPureIntro. exists (W z). split; [done|]. split; [right; eauto|]. by intros ? [= ->].
    - iDestruct "Hw" as (c Hc) "Hw". iDestruct (memI_lookup with "Hm Hw") as %Hl. iPureIntro. by exists c.
  Qed.

  Lemma part_history c m prog :
    world_start P K0 c m → allowed (wpre P) (wpost P) (c, p_sst0 P) prog →
    safe (run (p_step P) (p_cst0 P) prog m) (λ r m',
      world_end P c r.2 m' ∧ unchanged_outside (world_cells P c) m m').
  Proof.
    intros (Hnd & Hst & Hw & (h & Hh & Hl) & HK) Ha.
    pose proof (wp_adequacy_frame True (world_cells P c) (run (p_step P) (p_cst0 P) prog) m
      (λ r m', world_end P c r.2 m' ∧ unchanged_outside (world_cells P c) m m')) as Had.
    apply Had; clear Had. intros HG HE HF. assert (Henv : memG_env) by (rewrite HE; done).
    apply separate_frame in HK. rewrite -HF in HK.
    iIntros "Hm". iDestruct (big_sepM_cells m (world_cells P c) with "Hm") as "H"; [done| |].
    { intros a [->|[Hv|Hv]%elem_of_app]%elem_of_cons; [by eexists|by eapply po_vars|].
      apply elem_of_elements, elem_of_dom in Hv as [v Hv]. destruct (Hw _ _ Hv) as (c' & Hc' & _). by eexists. }
    rewrite /world_cells /= big_sepL_app. iDestruct "H" as "(Hc & Hv & Hws)".
    iApply (wp_run _ (wpre P) (wpost P) WR with "[Hc Hv Hws]").
    - intros cs [cm s] o Φ Hpre. iIntros "(%int & %Hd & Hws & HP & Hc) HΦ". simpl in *.
      iApply (po_step _ _ PO cm ∅ int cs s o with "Hws HP [Hc]"); [done|done|done|done|apply map_disjoint_empty_r|apply map_disjoint_empty_r| |].
      { by rewrite right_id_L. }
      iIntros (cs' a c' s' int' Hpost (Hd1 & _)) "Hws HP Hc". rewrite right_id_L.
      iApply ("HΦ" $! cs' a (c', s') with "[//]"). iExists int'. by iFrame.
    - exact Ha.
    - iExists ∅. iSplit; [iPureIntro; apply map_disjoint_empty_l|]. iSplitL "Hws"; [by iApply wordsR_start|].
      iSplitL "Hv"; [by iApply po_init|]. rewrite left_id_L. simpl. iDestruct "Hc" as (c0 Hc0) "Hc". rewrite Hh in Hc0. injection Hc0 as <-.
      iExists (hc_oracle h), (hc_next h). rewrite -Hl. by destruct h.
    - iIntros (cs tr [c' s'] Hcor) "(%int & %Hd & Hws & HP & (%o & %n & Hc))". iIntros (m') "Hm". simpl in *.
      iDestruct (memI_lookup with "Hm Hc") as %Hlk. iDestruct (wordsR_end with "Hm Hws") as %Hw'.
      iDestruct (po_idle _ _ PO with "HP") as %Hi. iDestruct (memI_frame with "Hm") as %Hf. iPureIntro. split.
      + exists c', s', int. split; [exact Hcor|]. split; [exact Hw'|]. split; [|by split].
        exists (HeapCtl (int ∪ cm_blocks c') o n). done.
      + intros a ca Hna Hca. eapply lookup_weaken; [|exact Hf]. rewrite HF. by apply map_filter_lookup_Some.
  Qed.
End part.

Lemma world_history fuel K0 cs c m prog :
  world_start (world fuel K0 cs) K0 c m →
  allowed (wpre (world fuel K0 cs)) (wpost (world fuel K0 cs)) (c, p_sst0 (world fuel K0 cs)) prog →
  safe (run (p_step (world fuel K0 cs)) (p_cst0 (world fuel K0 cs)) prog m) (λ r m',
    world_end (world fuel K0 cs) c r.2 m' ∧ unchanged_outside (world_cells (world fuel K0 cs) c) m m').
Proof. apply (part_history K0 _ (world_ok fuel K0 cs)). Qed.

(** ** Consequences *)
Lemma correct_app {op out sst : Type} (post : sst → op → out → sst → Prop) s tr1 tr2 s'' :
  correct post s (tr1 ++ tr2) s'' → ∃ s', correct post s tr1 s' ∧ correct post s' tr2 s''.
Proof.
  revert s. induction tr1 as [|[o a] tr1 IH]; intros s; simpl.
  - intros H. exists s. split; [constructor|done].
  - intros H. inversion H; subst. destruct (IH _ ltac:(eassumption)) as (s1 & H1 & H2). exists s1. split; [by econstructor|done].
Qed.

(** The abstract state of one container *)
Fixpoint own_state fuel K0 cs1 c cs2 : p_sst (world fuel K0 (cs1 ++ c :: cs2)) → p_sst (part_of fuel K0 c) :=
  match cs1 with
  | [] => fun s => s.1
  | _ :: cs1 => fun s => own_state fuel K0 cs1 c cs2 s.2
  end.

Lemma own_state_0 fuel K0 cs1 c cs2 :
  own_state fuel K0 cs1 c cs2 (p_sst0 (world fuel K0 (cs1 ++ c :: cs2))) = p_sst0 (part_of fuel K0 c).
Proof. induction cs1 as [|c1 cs1 IH]; [done|exact IH]. Qed.

Lemma correct_same {op out sst : Type} (post : sst → op → out → sst → Prop) s s' : s' = s → correct post s [] s'.
Proof. intros ->. constructor. Qed.

Lemma own_event_ok fuel K0 cs1 c cs2 cm s o a cm' s' :
  p_post (world fuel K0 (cs1 ++ c :: cs2)) cm s o a cm' s' →
  correct (own_post (part_of fuel K0 c)) (own_state fuel K0 cs1 c cs2 s) (own_event fuel K0 cs1 c cs2 o a)
    (own_state fuel K0 cs1 c cs2 s').
Proof.
  induction cs1 as [|c1 cs1 IH]; simpl in *.
  - destruct o as [o|o], a as [a|a]; simpl; try done.
    + intros [Hp _]. econstructor; [|constructor]. by exists cm, cm'.
    + intros [_ E]. apply correct_same. exact E.
  - destruct o as [o|o], a as [a|a]; simpl; try done.
    + intros [_ E]. apply correct_same. exact (f_equal (own_state fuel K0 cs1 c cs2) E).
    + intros [Hp _]. by apply IH.
Qed.

Lemma correct_trans {op out sst : Type} (post : sst → op → out → sst → Prop) s tr1 s' tr2 s'' :
  correct post s tr1 s' → correct post s' tr2 s'' → correct post s (tr1 ++ tr2) s''.
Proof. induction 1; simpl; [done|]. intros. econstructor; eauto. Qed.

Lemma world_own_answers fuel K0 cs1 k cs2 c m prog :
  world_start (world fuel K0 (cs1 ++ k :: cs2)) K0 c m →
  allowed (wpre (world fuel K0 (cs1 ++ k :: cs2))) (wpost (world fuel K0 (cs1 ++ k :: cs2)))
    (c, p_sst0 (world fuel K0 (cs1 ++ k :: cs2))) prog →
  safe (run (p_step (world fuel K0 (cs1 ++ k :: cs2))) (p_cst0 (world fuel K0 (cs1 ++ k :: cs2))) prog m) (λ r _,
    ∃ s', correct (own_post (part_of fuel K0 k)) (p_sst0 (part_of fuel K0 k)) (own_events fuel K0 cs1 k cs2 r.2) s').
Proof.
  intros Hs Ha. refine (safe_mono _ _ _ (world_history _ _ _ _ _ _ Hs Ha) _).
  intros [cst tr] m' [(c' & s' & int & Hcor & _) _]. simpl in *.
  exists (own_state fuel K0 cs1 k cs2 s'). rewrite -(own_state_0 fuel K0 cs1 k cs2).
  remember (c, p_sst0 _) as cs0 eqn:E0. remember (c', s') as cs1' eqn:E1.
  replace (p_sst0 (world fuel K0 (cs1 ++ k :: cs2))) with cs0.2 by by subst.
  replace s' with cs1'.2 by by subst. clear - Hcor.
  induction Hcor as [s|s o a s' tr s'' Hp Hc IH]; [constructor|].
  unfold own_events in *. simpl. eapply correct_trans; [|exact IH]. by eapply own_event_ok.
Qed.

(** If no container holds a heap block, the live blocks are those of the client. *)
Lemma world_no_leak : after_any_world_history (λ fuel K0 cs c _ tr _ m',
  ∃ c' s', correct (wpost (world fuel K0 cs)) (c, p_sst0 (world fuel K0 cs)) tr (c', s') ∧
  (p_idle (world fuel K0 cs) s' → heap_live m' (cm_blocks c'))).
Proof.
  intros fuel K0 cs c m prog Hs Ha. refine (safe_mono _ _ _ (world_history _ _ _ _ _ _ Hs Ha) _).
  intros [cst tr] m' [(c' & s' & int & Hcor & _ & Hl & _ & Hi) _]. exists c', s'. split; [done|].
  intros Hidle. rewrite (Hi Hidle) left_id_L in Hl. done.
Qed.

Lemma unknown_lookup l a v : unknown l !! a = Some v → v = None.
Proof. intros H. apply elem_of_list_to_map_2, elem_of_list_fmap in H as (b & [= -> ->] & _). done. Qed.
Lemma without_lookup l ws a v : without l ws !! a = Some v → ws !! a = Some v.
Proof. intros H. by apply map_filter_lookup_Some in H as [? _]. Qed.

(** A container writes to none of the words that the client knows afterwards. *)
Lemma part_keeps fuel K0 k c s o out c' s' a v :
  p_post (part_of fuel K0 k) c s o out c' s' → cm_words c' !! a = Some (Some v) → cm_words c !! a = Some (Some v).
Proof.
  assert (Hk : ∀ k s o out s', container_post k c s o out c' s' → cm_words c' !! a = Some (Some v) → cm_words c !! a = Some (Some v)).
  { intros k' ???? (s1 & _ & _ & ->). simpl. intros [H|[_ H]]%lookup_union_Some_raw; [by apply unknown_lookup in H|].
    by apply without_lookup in H. }
  destruct k; try apply Hk. destruct o; simpl; try done.
  - intros (_ & -> & _). done.
  - intros (bs & al & p & own & _ & _ & _ & _ & _ & _ & _ & _ & _ & _ & -> & _). simpl.
    intros [H|[_ H]]%lookup_union_Some_raw; [by apply unknown_lookup in H|done].
  - intros (bs & al & _ & _ & -> & _). apply without_lookup.
  - intros (bs & al & _ & _ & -> & _). done.
  - intros (bs & al & _ & _ & -> & _). apply without_lookup.
Qed.

Lemma memory_event_ok fuel K0 cs c s o out c' s' a v :
  p_post (world fuel K0 cs) c s o out c' s' → cm_words c' !! a = Some (Some v) →
  Some v = last_write a (cm_words c !! a ≫= id) (memory_event fuel K0 cs o out).
Proof.
  induction cs as [|k cs IH]; simpl in *.
  - destruct o; simpl.
    + intros (p & _ & _ & _ & _ & _ & _ & _ & ->). simpl. intros [H|[_ H]]%lookup_union_Some_raw.
      * by apply unknown_lookup in H.
      * by rewrite H.
    + intros (n & _ & _ & ->). simpl. intros ->%without_lookup. done.
    + intros (w & _ & _ & ->) ->. done.
    + intros [_ ->]. simpl. destruct (decide (a = a0)) as [->|]; [by rewrite lookup_insert; intros [= ->]|].
      rewrite lookup_insert_ne; [|done]. by intros ->.
  - destruct o as [o|o], out as [out|out]; simpl; try done.
    + intros [Hp _] H. by rewrite (part_keeps _ _ _ _ _ _ _ _ _ _ _ Hp H).
    + intros [Hp _] H. by eapply IH.
Qed.

Lemma memory_read_ok fuel K0 cs c s o out c' s' a out' :
  p_post (world fuel K0 cs) c s o out c' s' → memory_event fuel K0 cs o out = [(MRead a, out')] →
  ∃ v, out' = MWord v ∧ cm_words c !! a = Some (Some v).
Proof.
  induction cs as [|k cs IH]; simpl in *.
  - intros Hp [= -> ->]. destruct Hp as (v & Hv & -> & _). eauto.
  - destruct o as [o|o], out as [out|out]; simpl; try done. intros [Hp _] He. by eapply IH.
Qed.

Lemma last_write_app a v l1 l2 : last_write a v (l1 ++ l2) = last_write a (last_write a v l1) l2.
Proof. revert v. induction l1 as [|[[] ?] l1 IH]; intros u; simpl; auto. Qed.
Lemma last_write_None a v w l : last_write a None l = Some w → last_write a v l = Some w.
Proof.
  revert v. induction l as [|[[] ?] l IH]; intros u; simpl; auto; [done|]. destruct (decide _); auto.
Qed.

Lemma memory_event_short fuel K0 cs o out : ∀ x l1 l2, memory_event fuel K0 cs o out = l1 ++ x :: l2 → l1 = [] ∧ l2 = [].
Proof.
  induction cs as [|k cs IH]; simpl in *.
  - intros x [|? [|]] l2 H; simplify_eq/=. done.
  - destruct o as [o|o], out as [out|out]; simpl; eauto; by intros ? [|].
Qed.

Lemma world_reads : after_any_world_history (λ fuel K0 cs c _ tr _ _,
  ∀ l1 a out l2, memory_events fuel K0 cs tr = l1 ++ (MRead a, out) :: l2 →
    ∃ v, out = MWord v ∧ last_write a (cm_words c !! a ≫= id) l1 = Some v).
Proof.
  intros fuel K0 cs c m prog Hs Ha. refine (safe_mono _ _ _ (world_history _ _ _ _ _ _ Hs Ha) _).
  intros [cst tr] m' [(c' & s' & int & Hcor & _) _] l1 a out l2 He. simpl in *.
  change c with (c, p_sst0 (world fuel K0 cs)).1. revert Hcor l1 He. generalize (c, p_sst0 (world fuel K0 cs)) (c', s').
  clear. intros s s' Hcor. induction Hcor as [s|s o a' s' tr s'' Hp Hc IH]; intros l1 He; unfold memory_events in *; simpl in *.
  { by destruct l1. }
  apply app_eq_inv in He as [(k & He1 & He2)|(k & He1 & He2)].
  - destruct k as [|x k]; simpl in He2.
    + destruct (IH [] (eq_sym He2)) as (v & -> & Hv). exists v. split; [done|]. rewrite app_nil_r in He1. rewrite -He1.
      simpl in Hv. symmetry. eapply memory_event_ok; [done|]. destruct (cm_words s'.1 !! a) as [[?|]|]; simplify_eq/=; done.
    + injection He2 as <- ->. destruct (memory_event_short _ _ _ _ _ _ _ _ He1) as [-> _].
      destruct k; [|by destruct (memory_event_short _ _ _ _ _ _ [] _ He1)].
      destruct (memory_read_ok _ _ _ _ _ _ _ _ _ _ _ Hp He1) as (v & -> & Hv). exists v. split; [done|]. simpl. by rewrite Hv.
  - destruct (IH _ He2) as (v & -> & Hv). exists v. split; [done|]. rewrite He1 last_write_app.
    destruct (cm_words s'.1 !! a) as [[w|]|] eqn:Hw; simpl in Hv; [|by apply last_write_None..].
    by rewrite -(memory_event_ok _ _ _ _ _ _ _ _ _ _ _ Hp Hw).
Qed.
