(** * Arrays as part of a world. *)
From Verif Require Export WorldProof.
From Verif Require Import ArrayHist ArrayProof ArrayOfProof ArrayBlkProof.
Global Open Scope Z_scope.

Lemma awf_weaken w es own (l X : gmap Z region) : awf w es own (l ∪ X) → awf w es own l.
Proof. intros (H1 & H2). split; [|done]. by apply map_disjoint_union_r in H1 as [? _]. Qed.
Lemma disjoint_weaken (own l X : gmap Z region) : own ##ₘ l ∪ X → own ##ₘ l.
Proof. intros [? _]%map_disjoint_union_r. done. Qed.

Lemma array_laws T : kind_laws (array_kind T).
Proof.
  constructor; simpl; try done.
  - lia.
  - intros s o. by left.
  - intros om K f l X s o a s1 HX Hpre Hpost. exists l. destruct s as [arr own lv]. destruct o; simpl in *.
    + destruct Hpost as (-> & own' & -> & Hw). simpl. split; [done|]. split; [done|]. split; [done|]. exists own'. split; [done|]. by eapply awf_weaken.
    + destruct Hpost as (-> & k & es & news & own' & -> & -> & Hz & Hs & Hw). simpl. split; [done|]. split; [done|]. split; [done|].
      exists k, es, news, own'. split; [done|]. split; [done|]. split; [done|]. split; [done|]. by eapply awf_weaken.
    + destruct Hpost as (k & es & -> & -> & ->). simpl. split; [done|]. split; [done|]. by exists k, es.
    + destruct Hpost as (-> & ->). done.
    + destruct Hpost as (k & es & e & -> & He & -> & ->). simpl. split; [done|]. split; [done|]. by exists k, es, e.
    + destruct Hpost as (es & e & -> & He & -> & ->). simpl. split; [done|]. split; [done|]. by exists es, e.
    + destruct Hpost as (k & es & p & v & -> & He & -> & ->). simpl. split; [done|]. split; [done|]. by exists k, es, p, v.
    + destruct Hpost as (-> & es & p & own' & -> & -> & Hs & Hw). simpl. split; [done|]. split; [done|]. split; [done|].
      exists es, p, own'. split; [done|]. split; [done|]. split; [done|]. by eapply awf_weaken.
    + destruct Hpost as (k & es & e & j & v & -> & He & Hv & -> & -> & ->). simpl. split; [done|]. split; [done|]. by exists k, es, e, j, v.
    + destruct Hpost as (k & es & i & e & j & -> & He & Hj & -> & -> & ->). simpl. split; [done|]. split; [done|]. by exists k, es, i, e, j.
    + destruct Hpost as (-> & ->). done.
Qed.

Section array.
  Variable T : arrays.
  Variable inv : ay_st T → Z → Z → Prop.
  Variable shell : ay_st T → nat → list Z → nat → gmap Z region → iProp.
  Notation w := (ay_words T).

  Definition arrayC (cs : option (ay_st T)) (s : astate) : iProp :=
    match as_arr s with
    | None => ⌜cs = None ∧ as_own s = ∅⌝
    | Some (k, es) => ∃ st A, ⌜cs = Some st⌝ ∗ shell st k A (length es) (as_own s) ∗
        ⌜el_addr <$> es = take (length es) A⌝ ∗ ⌜Forall (λ e, length (el_vals e) = k) es⌝ ∗
        ([∗ list] e ∈ es, elemP w (el_addr e) (el_vals e)) ∗ zeros w k (drop (length es) A)
    end.
  Definition arraycore (cs : option (ay_st T)) (s : astate) (int : gmap Z region) : iProp :=
    ⌜int = as_own s⌝ ∗ arrayC cs s.

  Lemma AR_join `{!memG} (P : array_proof T inv) cs s : ap_shell P = shell → as_own s ##ₘ as_live s →
    arrayC cs s -∗ hctl (as_own s ∪ as_live s) -∗ AR T inv P cs s.
  Proof.
    iIntros (HP Hd) "H Hc". rewrite /AR /arrayC HP. destruct (as_arr s) as [[k es]|].
    - iDestruct "H" as (st A) "(-> & Hs & H1 & H2 & Hel & Hz)". iExists st, A. iSplit; [done|]. iSplit; [done|].
      iSplitL "Hs"; [iExact "Hs"|]. iSplitL "Hc"; [iExact "Hc"|]. iSplitL "H1"; [iExact "H1"|]. iSplitL "H2"; [iExact "H2"|].
      iSplitL "Hel"; [iExact "Hel"|iExact "Hz"].
    - iDestruct "H" as "[-> %Ho]". rewrite Ho left_id_L. by iFrame.
  Qed.
  Lemma AR_split `{!memG} (P : array_proof T inv) cs s : ap_shell P = shell →
    AR T inv P cs s -∗ ⌜as_own s ##ₘ as_live s⌝ ∗ arrayC cs s ∗ hctl (as_own s ∪ as_live s).
  Proof.
    iIntros (HP) "H". rewrite /AR /arrayC HP. destruct (as_arr s) as [[k es]|].
    - iDestruct "H" as (st A) "(-> & %Hd & Hs & Hc & H1 & H2 & Hel & Hz)". iSplit; [done|]. iSplitR "Hc"; [|iExact "Hc"].
      iExists st, A. iSplit; [done|]. iSplitL "Hs"; [iExact "Hs"|]. iSplitL "H1"; [iExact "H1"|]. iSplitL "H2"; [iExact "H2"|].
      iSplitL "Hel"; [iExact "Hel"|iExact "Hz"].
    - iDestruct "H" as "(-> & %Ho & Hc)". rewrite Ho left_id_L. iFrame. iPureIntro. split; [apply map_disjoint_empty_l|done].
  Qed.

  Hypothesis proof : ∀ `{!memG}, memG_env → {P : array_proof T inv | ap_shell P = shell}.

  Definition arrays_ok fuel : kind_ok fuel (array_kind T).
  Proof.
    refine (KindOk fuel (array_kind T) arraycore _ _ _ _ _ _ _); simpl.
    - done.
    - iIntros (cs s int) "_". done.
    - intros m _. iIntros "_". rewrite /arraycore /arrayC /=. done.
    - intros m _ a Ha. by apply elem_of_nil in Ha.
    - done.
    - iIntros (cs s int) "[-> H]". iIntros (Hi). rewrite /arrayC Hi. by iDestruct "H" as %[_ ->].
    - iIntros (G om K int cs s o Φ Henv HK Hom Hf Hpre Hd) "Hp Hr [-> Hcore] Hc HΦ".
      destruct (proof Henv) as [P HP].
      iApply (wp_astep T inv P cs s o with "[Hcore Hc]"); [done| |].
      + by iApply (AR_join with "Hcore Hc").
      + iIntros (cs' a s' Hpost) "HR". iDestruct (AR_split with "HR") as "(%Hd' & Hcore & Hc)"; [done|].
        iApply ("HΦ" $! cs' a s' (as_own s') with "[//] [//] Hp [Hcore] Hc"). iSplit; done.
  Qed.
End array.

Definition warray_ok fuel : kind_ok fuel (array_kind array_a).
Proof. apply (arrays_ok array_a array_inv array_shell). intros G Henv. by exists (array_ok Henv). Qed.
Definition warrayof_ok fuel : kind_ok fuel (array_kind arrayof_a).
Proof. apply (arrays_ok arrayof_a arrayof_inv arrayof_shell). intros G Henv. by exists (arrayof_ok Henv). Qed.
Definition warrayblk_ok fuel : kind_ok fuel (array_kind arrayblk_a).
Proof. apply (arrays_ok arrayblk_a arrayblk_inv arrayblk_shell). intros G Henv. by exists (arrayblk_ok Henv). Qed.
Definition warrayblkof_ok fuel : kind_ok fuel (array_kind arrayblkof_a).
Proof. apply (arrays_ok arrayblkof_a arrayblkof_inv arrayblkof_shell). intros G Henv. by exists (arrayblkof_ok Henv). Qed.
