(** * Hashtables as part of a world. *)
From Verif Require Export WorldList.
From Verif Require Import TableHist HashTblProof HashDynProof HashLinProof.
Global Open Scope Z_scope.

Notation tab_elems tb := (match tb with TabEs es => (λ e, (en_p e, en_d e)) <$> es | _ => [] end).

Lemma tab_elems_fst es : ((λ e, (en_p e, en_d e)) <$> es).*1 = en_p <$> es.
Proof. by rewrite -list_fmap_compose. Qed.
Lemma tab_elems_snd es : ((λ e, (en_p e, en_d e)) <$> es).*2 = en_d <$> es.
Proof. by rewrite -list_fmap_compose. Qed.

Lemma table_laws T fuel t : kind_laws (table_kind T fuel t).
Proof.
  constructor; simpl; try done.
  - lia.
  - intros s o. destruct o; try apply submseteq_nil_l. done.
  - intros s o. destruct o; auto.
  - intros om K f l X s o HX. destruct o; simpl; try done. intros (xs & H1 & HF). exists xs. split; [done|].
    eapply Forall_impl; [exact HF|]. intros x. apply freeable_mono.
  - intros om K f l X s o a s1 HX Hpre Hpost. destruct s as [fr tb lv]. simpl in *.
    assert (o = TForeachFree ∨ o ≠ TForeachFree) as [->|Hno] by (destruct o; auto).
    + simpl in Hpost, Hpre. destruct Hpost as (es & es' & -> & Hp & -> & ->). destruct Hpre as (es0 & [= <-] & HF). simpl in *.
      rewrite Forall_forall in HF. exists (free_all (en_d <$> es') l). rewrite free_all_union.
      2: { intros d (x & -> & Hx)%elem_of_list_fmap. eapply freeable_notin; [done|]. apply HF. by rewrite -Hp. }
      split; [done|]. split; [by eapply map_disjoint_weaken_l; [|apply WorldList.free_all_subseteq]|].
      exists es, es'. done.
    + exists l. destruct o; simpl in *; try done.
      * destruct Hpost as [-> ->]. done.
      * destruct Hpost as (es & -> & -> & ->). simpl. split; [done|]. split; [done|]. by exists es.
      * destruct Hpost as [(es1 & e & es2 & -> & H1 & H2 & -> & ->)|(es & -> & H1 & -> & ->)]; simpl; (split; [done|]); (split; [done|]).
        -- left. by exists es1, e, es2.
        -- right. by exists es.
      * destruct Hpost as (es1 & d & h & es2 & -> & -> & ->). simpl. split; [done|]. split; [done|]. by exists es1, d, h, es2.
      * destruct Hpost as [-> Hpost]. done.
      * destruct Hpost as (es & xs & -> & -> & H1 & H2 & ->). simpl. split; [done|]. split; [done|]. by exists es, xs.
      * destruct Hpost as (es & -> & -> & ->). simpl. split; [done|]. split; [done|]. by exists es.
      * destruct Hpost as (es & es' & -> & H1 & -> & ->). simpl. split; [done|]. split; [done|]. by exists es, es'.
      * destruct Hpost as (es & es' & -> & H1 & -> & ->). simpl. split; [done|]. split; [done|]. by exists es, es'.
      * destruct Hpost as [-> ->]. done.
  - intros om K s o a s1 p Hpre Hpost. destruct s as [fr tb lv]. simpl in *. destruct o; simpl in *.
    + destruct Hpost as [-> ->]. simpl. intros [?|Hp]; [by left|by apply elem_of_nil in Hp].
    + destruct Hpost as (es & -> & -> & ->). simpl. rewrite !tab_elems_fst fmap_app. destruct Hpre as [Hp0 _].
      rewrite elem_of_app elem_of_list_singleton. simpl. intros [Hp|[Hp| ->]]; [left; set_solver|by right|by left].
    + destruct Hpost as [(es1 & e & es2 & -> & H1 & H2 & -> & ->)|(es & -> & H1 & -> & ->)]; simpl; [|done].
      rewrite !tab_elems_fst !fmap_app fmap_cons !elem_of_app elem_of_cons elem_of_union elem_of_singleton. tauto.
    + destruct Hpost as (es1 & d & h & es2 & -> & -> & ->). simpl.
      rewrite !tab_elems_fst !fmap_app fmap_cons !elem_of_app elem_of_cons elem_of_union elem_of_singleton. simpl. tauto.
    + by destruct Hpost as [-> _].
    + by destruct Hpost as (es & xs & _ & _ & _ & _ & ->).
    + by destruct Hpost as (es & -> & -> & ->).
    + by destruct Hpost as (es & es' & -> & H1 & -> & ->).
    + by destruct Hpost as (es & es' & -> & H1 & -> & ->).
    + destruct Hpost as (es & es' & -> & H1 & -> & ->). simpl. intros [?|Hp]; [by left|by apply elem_of_nil in Hp].
    + destruct Hpost as [-> ->]. simpl. intros [Hp|Hp]; [|by apply elem_of_nil in Hp].
      apply elem_of_union in Hp as [Hp|Hp]; [by left|]. destruct tb as [|es|]; [set_solver| |set_solver].
      right. rewrite tab_elems_fst. by apply elem_of_list_to_set in Hp.
Qed.

Section core.
  Variable t : Z.
  Variable T : table.
  Variable inv : tb_st T → nat → Prop.
  Variable rep : tb_st T → list elem → gmap Z region → iProp.
  Variable shell : tb_st T → gmap Z region → iProp.

  Definition tabC (cs : option (tb_st T)) (s : tstate) (int : gmap Z region) : iProp :=
    match ts_tab s with
    | TabNone => ⌜cs = None ∧ int = ∅⌝
    | TabEs es => ∃ st es', ⌜cs = Some st ∧ en <$> es' = es ∧ Forall (λ e, wordcell (e_i e)) es'⌝ ∗ rep st es' int
    | TabFreed => ∃ st, ⌜cs = Some st⌝ ∗ shell st int
    end.
  Definition tabcore (cs : option (tb_st T)) (s : tstate) (int : gmap Z region) : iProp :=
    t ↦ Tape [] ∗ tabC cs s int.

  Lemma erests_en om es : ([∗ list] e ∈ es, erest om e) ⊣⊢
    ([∗ list] x ∈ (λ e, (en_p e, en_d e)) <$> (en <$> es), rest 4 om x.1) ∗ ⌜Forall (λ e, wordcell (e_i e)) es⌝.
  Proof.
    rewrite /erest big_sepL_sep !big_sepL_fmap big_sepL_pure. f_equiv. f_equiv. rewrite Forall_lookup. done.
  Qed.

  Lemma TR_split om cs s :
    TR om t T rep shell cs s ⊣⊢ ∃ int, ⌜int ##ₘ TableSpec.ts_live s⌝ ∗ pool 4 om (TableSpec.ts_free s) ∗
      ([∗ list] x ∈ tab_elems (ts_tab s), rest 4 om x.1) ∗ tabcore cs s int ∗ hctl (int ∪ TableSpec.ts_live s).
  Proof.
    rewrite /TR /tabcore /tabC. destruct (ts_tab s) as [|es|].
    - iSplit.
      + iIntros "($ & $ & -> & Hc)". iExists ∅. rewrite left_id_L. iFrame. simpl. iPureIntro. split; [apply map_disjoint_empty_l|done].
      + iIntros "(%int & _ & $ & _ & ($ & %Hi) & Hc)". destruct Hi as [-> ->]. rewrite left_id_L. by iFrame.
    - iSplit.
      + iIntros "($ & $ & (%st & %es' & -> & <- & (%int & %Hd & HR & Hc) & He))". rewrite erests_en.
        iDestruct "He" as "[$ %HF]". iExists int. iFrame "Hc". iSplit; [done|]. iExists st, es'. by iFrame.
      + iIntros "(%int & %Hd & $ & He & ($ & (%st & %es' & (-> & <- & %HF) & HR)) & Hc)".
        iExists st, es'. rewrite erests_en. iFrame "He". iSplit; [done|]. iSplit; [done|]. iSplit; [|done]. iExists int. by iFrame.
    - iSplit.
      + iIntros "($ & $ & (%st & %int & -> & %Hd & Hs & Hc))". iExists int. iFrame "Hc". iSplit; [done|]. simpl. iSplit; [done|].
        iExists st. by iFrame.
      + iIntros "(%int & %Hd & $ & _ & ($ & (%st & -> & Hs)) & Hc)". iExists st, int. by iFrame.
  Qed.

  Hypothesis rep_nodes : ∀ st es int, rep st es int ⊢ [∗ list] e ∈ es, ∃ nx pv, nodeP e nx pv.
  Hypothesis proof : ∀ `{!memG}, memG_env → {P : table_proof T inv t | tp_rep _ _ _ P = rep ∧ tp_shell _ _ _ P = shell}.

  Definition table_ok fuel : kind_ok fuel (table_kind T fuel t).
  Proof.
    refine (KindOk fuel (table_kind T fuel t) tabcore _ _ _ _ _ _ _); simpl.
    - done.
    - iIntros (cs s int) "(_ & H)". rewrite /tabC. destruct (ts_tab s) as [|es|]; simpl; [auto| |auto].
      iDestruct "H" as (st es' (-> & <- & HF)) "H". rewrite rep_nodes !big_sepL_fmap.
      iApply (big_sepL_impl with "H"). iIntros "!>" (i e He) "(%nx & %pv & Hn)". simpl. iApply fnode4.
      iApply (nodeP_freenode with "Hn"). by eapply Forall_lookup in HF.
    - intros m Ht. iIntros "[(%c & %Hc & Ht) _]". rewrite Ht in Hc. injection Hc as <-. by iFrame.
    - intros m Ht a ->%elem_of_list_singleton. by eexists.
    - done.
    - iIntros (cs s int) "(_ & H)". iIntros (Hi). rewrite /tabC Hi. by iDestruct "H" as %[_ ->].
    - iIntros (G om K int cs s o Φ Henv HK Hom Hf Hpre Hd) "Hp Hr Hcore Hc HΦ".
      destruct (proof Henv) as [[rep' shell' H1 H2 H3 H4 H5 H6 H7 H8 H9 H10 H11 H12 ???] [Hr1 Hr2]]. simpl in *. subst rep' shell'.
      iApply (wp_tstep om t T rep shell inv H1 H2 H3 H4 H5 H6 H7 H8 H9 H10 H11 H12 Hom fuel K cs s o with "[Hp Hr Hcore Hc]"); [lia|done|done| |].
      + rewrite TR_split. iExists int. by iFrame.
      + iIntros (cs' a s' Hpost) "HR". rewrite TR_split. iDestruct "HR" as "(%int' & %Hd' & Hp & _ & Hcore & Hc)".
        iApply ("HΦ" $! cs' a s' int' with "[//] [//] Hp Hcore Hc").
  Qed.
End core.

Definition hashtable_ok t fuel : kind_ok fuel (table_kind hashtable_table fuel t).
Proof.
  apply (table_ok t hashtable_table hashtable_inv ht_rep ht_shell).
  - iIntros (st es int) "H". rewrite ht_shell_of. iDestruct "H" as "[$ _]".
  - intros G Henv. exists (ht_proof t Henv). done.
Qed.
Definition hashdyn_ok t fuel : kind_ok fuel (table_kind hashdyn_table fuel t).
Proof.
  apply (table_ok t hashdyn_table hashdyn_inv hd_rep hd_shell).
  - iIntros (st es int) "H". rewrite hd_shell_of. iDestruct "H" as "[$ _]".
  - intros G Henv. exists (hd_proof t Henv). done.
Qed.
Definition hashlin_ok t fuel : kind_ok fuel (table_kind hashlin_table fuel t).
Proof.
  apply (table_ok t hashlin_table hashlin_inv hl_rep hl_shell).
  - iIntros (st es int) "H". rewrite hl_shell_of. iDestruct "H" as "[$ _]".
  - intros G Henv. exists (hl_proof t Henv). done.
Qed.
