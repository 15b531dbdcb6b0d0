(** * Proofs about chains and list sort: heap level *)
From Verif Require Export ListProof Chain BitsProof.
Global Open Scope Z_scope.

(** ** Relational description of the sort

    [f] is the comparison, a function of the whole sequence of earlier calls
    (an arbitrary stateful comparator).  The [log] is the list of calls. *)
Notation clog := (list (Z * Z)).

Section rel.
  Context (f : clog → Z → Z → Z).
  Implicit Types (log : clog).

  Inductive mrg : clog → list elem → list elem → clog → list elem → Prop :=
  | mrg_nil_l log ys : mrg log [] ys log ys
  | mrg_nil_r log xs : mrg log xs [] log xs
  | mrg_l log x xs y ys log' r :
      f log (e_d x) (e_d y) <= 0 →
      mrg (log ++ [(e_d x, e_d y)]) xs (y :: ys) log' r →
      mrg log (x :: xs) (y :: ys) log' (x :: r)
  | mrg_r log x xs y ys log' r :
      f log (e_d x) (e_d y) > 0 →
      mrg (log ++ [(e_d x, e_d y)]) (x :: xs) ys log' r →
      mrg log (x :: xs) (y :: ys) log' (y :: r).

  (** merge_degenerated: x first, xl last of first; y first, yl last of second *)
  Inductive mrgd : clog → list elem → list elem → clog → list elem → Prop :=
  | mrgd_le log xs xl y ys :
      f log (e_d xl) (e_d y) <= 0 →
      mrgd log (xs ++ [xl]) (y :: ys) (log ++ [(e_d xl, e_d y)]) ((xs ++ [xl]) ++ y :: ys)
  | mrgd_gt log x xs xs' xl y ys ys' yl log1 :
      x :: xs = xs' ++ [xl] → y :: ys = ys' ++ [yl] →
      f log (e_d xl) (e_d y) > 0 → log1 = log ++ [(e_d xl, e_d y)] →
      f log1 (e_d yl) (e_d x) < 0 →
      mrgd log (x :: xs) (y :: ys) (log1 ++ [(e_d yl, e_d x)]) ((y :: ys) ++ x :: xs)
  | mrgd_merge log x xs xs' xl y ys ys' yl log1 log' r :
      x :: xs = xs' ++ [xl] → y :: ys = ys' ++ [yl] →
      f log (e_d xl) (e_d y) > 0 → log1 = log ++ [(e_d xl, e_d y)] →
      f log1 (e_d yl) (e_d x) >= 0 →
      mrg (log1 ++ [(e_d yl, e_d x)]) (x :: xs) (y :: ys) log' r →
      mrgd log (x :: xs) (y :: ys) log' r.

  (** add a carry to the buckets, [] being an empty bucket *)
  Inductive addc : clog → list elem → list (list elem) → clog → list (list elem) → Prop :=
  | addc_nil log cur : addc log cur [] log [cur]
  | addc_empty log cur segs : addc log cur ([] :: segs) log (cur :: segs)
  | addc_full log cur b segs log1 r log' segs' :
      b ≠ [] → mrgd log b cur log1 r → addc log1 r segs log' segs' →
      addc log cur (b :: segs) log' ([] :: segs').

  Inductive adds : clog → list elem → list (list elem) → clog → list (list elem) → Prop :=
  | adds_nil log segs : adds log [] segs log segs
  | adds_cons log x xs segs log1 segs1 log' segs' :
      addc log [x] segs log1 segs1 → adds log1 xs segs1 log' segs' →
      adds log (x :: xs) segs log' segs'.

  Inductive finm : clog → list elem → list (list elem) → clog → list elem → Prop :=
  | finm_nil log cur : finm log cur [] log cur
  | finm_empty log cur segs log' r : finm log cur segs log' r → finm log cur ([] :: segs) log' r
  | finm_full log cur b segs log1 r log' r' :
      b ≠ [] → mrgd log b cur log1 r → finm log1 r segs log' r' →
      finm log cur (b :: segs) log' r'.

  Inductive msort : clog → list elem → clog → list elem → Prop :=
  | msort_nil log : msort log [] log []
  | msort_run log xs log1 k cur segs log' r :
      xs ≠ [] → adds log xs [] log1 (replicate k [] ++ cur :: segs) → cur ≠ [] →
      finm log1 cur segs log' r →
      msort log xs log' r.
End rel.

Lemma length_concat {A} (ls : list (list A)) : length (concat ls) = sum_list (length <$> ls).
Proof. induction ls as [|l ls IH]; [done|]. simpl concat. rewrite app_length IH. done. Qed.

(** ** Permutation: whatever the comparator does *)
Section perm.
  Context (f : clog → Z → Z → Z).

  Lemma mrg_perm log xs ys log' r : mrg f log xs ys log' r → r ≡ₚ xs ++ ys.
  Proof.
    induction 1 as [| |log x xs y ys log' r Hf Hm IH|log x xs y ys log' r Hf Hm IH].
    - done.
    - by rewrite app_nil_r.
    - simpl. by rewrite IH.
    - rewrite IH. by rewrite -Permutation_middle.
  Qed.
  Lemma mrgd_perm log xs ys log' r : mrgd f log xs ys log' r → r ≡ₚ xs ++ ys.
  Proof.
    destruct 1; [done|by rewrite Permutation_app_comm|by eapply mrg_perm].
  Qed.
  Lemma addc_perm log cur segs log' segs' : addc f log cur segs log' segs' →
    concat segs' ≡ₚ cur ++ concat segs.
  Proof.
    induction 1 as [| |log cur b segs log1 r log' segs' Hb Hm Ha IH]; simpl; [done..|].
    rewrite IH (mrgd_perm _ _ _ _ _ Hm). rewrite (Permutation_app_comm b cur). by rewrite assoc.
  Qed.
  Lemma adds_perm log xs segs log' segs' : adds f log xs segs log' segs' →
    concat segs' ≡ₚ xs ++ concat segs.
  Proof.
    induction 1 as [|log x xs segs log1 segs1 log' segs' Ha Hs IH]; [done|].
    rewrite IH (addc_perm _ _ _ _ _ Ha) /=. by rewrite -Permutation_middle.
  Qed.
  Lemma finm_perm log cur segs log' r : finm f log cur segs log' r → r ≡ₚ cur ++ concat segs.
  Proof.
    induction 1 as [|log cur segs log' r Hf IH|log cur b segs log1 r log' r' Hb Hm Hf IH]; simpl.
    - by rewrite app_nil_r.
    - done.
    - rewrite IH (mrgd_perm _ _ _ _ _ Hm) (Permutation_app_comm b cur). by rewrite assoc.
  Qed.
  Lemma concat_replicate_nil {A} k : concat (replicate k (@nil A)) = [].
  Proof. by induction k. Qed.
  Lemma msort_perm log xs log' r : msort f log xs log' r → r ≡ₚ xs.
  Proof.
    destruct 1 as [|log xs log1 k cur segs log' r Hx Ha Hc Hf]; [done|].
    rewrite (finm_perm _ _ _ _ _ Hf). apply adds_perm in Ha.
    rewrite concat_app concat_replicate_nil /= app_nil_r in Ha. done.
  Qed.
End perm.

Local Typeclasses Transparent nodeP.
Section chain.
  Context `{!memG}.
  Context (f : clog → Z → Z → Z) (Q : clog → iProp) (P : Z → Prop).

  (** The comparison of two data that satisfy [P]. *)
  Definition cmp_spec (cmp : Z → Z → M Z) : iProp :=
    □ ∀ log a b Φ, ⌜P a⌝ -∗ ⌜P b⌝ -∗ Q log -∗ (Q (log ++ [(a, b)]) -∗ Φ (f log a b)) -∗ wp (cmp a b) Φ.

  Definition dok (xs : list elem) : Prop := Forall (λ e, P (e_d e)) xs.

  Lemma dok_perm xs ys : xs ≡ₚ ys → dok ys → dok xs.
  Proof. rewrite /dok. intros ->. done. Qed.

  Lemma wp_chain_merge_loop fuel cmp dn x xs y ys pv nx pv2 nx2 log Φ :
    (length (x :: xs) + length (y :: ys) ≤ fuel)%nat → dok (x :: xs) → dok (y :: ys) →
    cmp_spec cmp -∗
    dseg (dn ++ x :: xs) pv nx -∗ dseg (y :: ys) pv2 nx2 -∗ Q log -∗
    (∀ log' r pv' nx', ⌜mrg f log (x :: xs) (y :: ys) log' r⌝ -∗ ⌜r ≠ []⌝ -∗ dseg (dn ++ r) pv' nx' -∗ Q log' -∗
       Φ (hd_p (dn ++ r) 0, last_p 0 (dn ++ r))) -∗
    wp (chain_merge_loop fuel cmp (e_p x) (e_p y) (hd_p (dn ++ x :: xs) 0) (last_p 0 (dn ++ x :: xs))
          (last_p 0 (y :: ys))) Φ.
  Proof.
    iIntros (Hf HPx HPy) "#Hcmp Hx Hy HQ HΦ".
    iInduction fuel as [|fuel] "IH" forall (dn x xs y ys pv nx pv2 nx2 log Hf HPx HPy Φ).
    { simpl in Hf. lia. }
    cbn [chain_merge_loop].
    iDestruct (dseg_nodup with "Hx") as %Hndx. iDestruct (dseg_nodup with "Hy") as %Hndy.
    rewrite dseg_app !dseg_cons. iDestruct "Hx" as "(Hdn&(%Hp&Hn&Hv&Hd&Hi)&Hxs)".
    iDestruct "Hy" as "[(%Hp2&Hn2&Hv2&Hd2&Hi2) Hys]".
    pose proof HPx as [HP1 HP1']%Forall_cons. pose proof HPy as [HP2 HP2']%Forall_cons.
    wp_load. wp_load. wp_bind. iApply ("Hcmp" with "[%] [%] HQ"); [done..|]. iIntros "HQ".
    destruct (decide (f log (e_d x) (e_d y) > 0)) as [Hgt|Hle].
    - wp_load.
      (* insert y before x *)
      wp_bind.
      iAssert (∀ Ψ, (∀ pv', dseg ((dn ++ [y]) ++ x :: xs) pv' nx -∗ Ψ (hd_p ((dn ++ [y]) ++ x :: xs) 0)) -∗
         wp (if decide (e_p x = hd_p (dn ++ x :: xs) 0)
          then chain_concat (e_p y) (e_p x);; mret (e_p y)
          else p ← load (f_prev (e_p x)); chain_splice p (e_p x) (e_p y) (e_p y);; mret (hd_p (dn ++ x :: xs) 0)) Ψ)%I
        with "[Hdn Hn Hv Hd Hi Hxs Hn2 Hv2 Hd2 Hi2]" as "Hstep".
      { iIntros (Ψ) "HΨ". destruct dn as [|z dn _] using rev_ind.
        - cbn [hd_p last_p app]. wp_if. rewrite /chain_concat. wp_bind. wp_store. wp_store. wp_ret.
          iApply ("HΨ" $! pv2). rewrite !dseg_cons. cbn [hd_p]. iFrame. done.
        - rewrite last_p_snoc dseg_snoc. iDestruct "Hdn" as "[Hdn (%Hpz&Hnz&Hz)]".
          iAssert ⌜e_p x ≠ hd_p ((dn ++ [z]) ++ x :: xs) 0⌝%I as %Hne.
          { iPureIntro. rewrite hd_p_app. intros Heq.
            assert (e_p x ∈ e_p <$> dn ++ [z]) as Hin.
            { rewrite Heq. destruct dn as [|d dn]; simpl; left. }
            rewrite fmap_app fmap_cons NoDup_app in Hndx. destruct Hndx as (_&Hndx&_).
            apply (Hndx (e_p x)); [done|]. left. }
          wp_if. wp_load. rewrite /chain_splice. wp_bind. wp_store. wp_store. wp_store. wp_store. wp_ret.
          assert (Hhd : hd_p ((dn ++ [z]) ++ x :: xs) 0 = hd_p (((dn ++ [z]) ++ [y]) ++ x :: xs) 0)
            by (rewrite !hd_p_app; by destruct dn).
          rewrite Hhd. iApply ("HΨ" $! pv).
          rewrite !dseg_app !dseg_cons ?last_p_snoc ?hd_p_app. cbn [hd_p last_p app].
          iFrame. by iFrame "%". }
      iApply "Hstep". iIntros (pv') "Hx".
      destruct ys as [|y' ys].
      + wp_if. wp_ret.
        iSpecialize ("HΦ" $! (log ++ [(e_d x, e_d y)]) (y :: x :: xs) pv' nx with "[] [//] [Hx] HQ").
        { iPureIntro. apply mrg_r; [done|]. apply mrg_nil_r. }
        { by rewrite -assoc. }
        rewrite -assoc. rewrite !last_p_app. cbn [last_p app]. done.
      + iAssert ⌜e_p y ≠ last_p 0 (y :: y' :: ys)⌝%I as %Hne.
        { iPureIntro. cbn [last_p]. intros Heq. apply NoDup_cons in Hndy as [Hnin _]. apply Hnin.
          rewrite Heq. clear. revert y'. induction ys as [|z ys IH]; intros y'; [left|]. right. apply IH. }
        wp_if. cbn [hd_p].
        replace (last_p 0 (dn ++ x :: xs)) with (last_p 0 ((dn ++ [y]) ++ x :: xs)) by (by rewrite !last_p_app).
        iApply ("IH" with "[%] [%] [%] Hx Hys HQ"). { simpl in *. lia. } { done. } { done. }
        iIntros (log' r pv'' nx') "%Hm %Hr Hr HQ".
        iSpecialize ("HΦ" $! log' (y :: r) pv'' nx' with "[] [//] [Hr] HQ").
        { iPureIntro. by apply mrg_r. }
        { by rewrite -assoc. }
        by rewrite -assoc.
    - destruct xs as [|x' xs].
      + rewrite last_p_app. cbn [last_p]. wp_if. rewrite /chain_concat. wp_bind. wp_store. wp_store. wp_ret.
        iSpecialize ("HΦ" $! (log ++ [(e_d x, e_d y)]) (x :: y :: ys) pv nx2 with "[] [//] [-HQ] HQ").
        { iPureIntro. apply mrg_l; [lia|]. apply mrg_nil_l. }
        { rewrite dseg_app !dseg_cons. cbn [hd_p last_p]. iFrame. done. }
        rewrite !hd_p_app !last_p_app. cbn [hd_p last_p app]. done.
      + iAssert ⌜e_p x ≠ last_p 0 (dn ++ x :: x' :: xs)⌝%I as %Hne.
        { iPureIntro. rewrite last_p_app. cbn [last_p]. intros Heq.
          rewrite fmap_app !fmap_cons NoDup_app in Hndx. destruct Hndx as (_&_&Hndx).
          apply NoDup_cons in Hndx as [Hnin _]. apply Hnin.
          rewrite Heq. clear. revert x'. induction xs as [|z ys IH]; intros x'; [left|]. right. apply IH. }
        wp_if. wp_load. cbn [hd_p].
        replace (last_p 0 (dn ++ x :: x' :: xs)) with (last_p 0 ((dn ++ [x]) ++ x' :: xs)) by (by rewrite !last_p_app).
        replace (hd_p (dn ++ x :: x' :: xs) 0) with (hd_p ((dn ++ [x]) ++ x' :: xs) 0) by (by rewrite -assoc).
        iApply ("IH" with "[%] [%] [%] [Hdn Hn Hv Hd Hi Hxs] [Hn2 Hv2 Hd2 Hi2 Hys] HQ").
        { simpl in *. lia. } { done. } { done. }
        { rewrite -assoc dseg_app !dseg_cons. cbn [hd_p last_p app]. iFrame. done. }
        { rewrite dseg_cons. iFrame. done. }
        iIntros (log' r pv'' nx') "%Hm %Hr Hr HQ".
        iSpecialize ("HΦ" $! log' (x :: r) pv'' nx' with "[] [//] [Hr] HQ").
        { iPureIntro. apply mrg_l; [lia|]. done. }
        { by rewrite -assoc. }
        by rewrite -assoc.
  Qed.

  (** A chain: the outer links are arbitrary. *)
  Definition chainD (xs : list elem) : iProp := ∃ pv nx, dseg xs pv nx.
  Definition ends (xs : list elem) : Z * Z := (hd_p xs 0, last_p 0 xs).

  Lemma chainD_dseg xs pv nx : dseg xs pv nx -∗ chainD xs.
  Proof. iIntros "H". iExists pv, nx. iFrame. Qed.

  Lemma wp_chain_concat xs ys pv nx pv2 nx2 Φ :
    xs ≠ [] → ys ≠ [] →
    dseg xs pv nx -∗ dseg ys pv2 nx2 -∗ (dseg (xs ++ ys) pv nx2 -∗ Φ tt) -∗
    wp (chain_concat (last_p 0 xs) (hd_p ys 0)) Φ.
  Proof.
    iIntros (Hx Hy) "Hx Hy HΦ". rewrite /chain_concat.
    iDestruct (dseg_ends with "Hx") as "(%Hhp&Hhp&Htn&Hxs)"; first done.
    iDestruct (dseg_ends with "Hy") as "(%Hhp2&Hhp2&Htn2&Hys)"; first done.
    wp_store. wp_store. iApply "HΦ". rewrite dseg_app (last_p_indep _ 0) // hd_last_indep //.
    iSplitL "Hhp Htn Hxs".
    - iApply ("Hxs" with "Hhp Htn").
    - iApply ("Hys" with "Hhp2 Htn2").
  Qed.

  Lemma ends_app xs ys : xs ≠ [] → ys ≠ [] → ends (xs ++ ys) = (hd_p xs 0, last_p 0 ys).
  Proof. intros. rewrite /ends hd_p_app last_p_app hd_last_indep // (last_p_indep _ 0 ys) //. Qed.

  Lemma wp_chain_merge_degenerated fuel cmp xs ys log Φ :
    (length xs + length ys ≤ fuel)%nat → xs ≠ [] → ys ≠ [] → dok xs → dok ys →
    cmp_spec cmp -∗
    chainD xs -∗ chainD ys -∗ Q log -∗
    (∀ log' r, ⌜mrgd f log xs ys log' r⌝ -∗ ⌜r ≠ []⌝ -∗ chainD r -∗ Q log' -∗ Φ (ends r)) -∗
    wp (chain_merge_degenerated fuel (ends xs) (ends ys) cmp) Φ.
  Proof.
    iIntros (Hf Hx Hy HPx HPy) "#Hcmp (%pv&%nx&Hx) (%pv2&%nx2&Hy) HQ HΦ".
    destruct xs as [|x xs]; [done|]. destruct ys as [|y ys]; [done|]. clear Hx Hy.
    destruct (exists_last (l:=x :: xs)) as (xs'&xl&Hxl); [done|].
    destruct (exists_last (l:=y :: ys)) as (ys'&yl&Hyl); [done|].
    pose proof HPx as [HP1 _]%Forall_cons. pose proof HPy as [HP2 _]%Forall_cons.
    assert (P (e_d xl) ∧ P (e_d yl)) as [HP3 HP4].
    { rewrite Hxl in HPx. rewrite Hyl in HPy.
      apply Forall_app in HPx as [_ [? _]%Forall_cons]. by apply Forall_app in HPy as [_ [? _]%Forall_cons]. }
    rewrite /chain_merge_degenerated. cbn [fst snd ends].
    assert (Hlx : last_p 0 (x :: xs) = e_p xl) by (by rewrite Hxl last_p_snoc).
    assert (Hly : last_p 0 (y :: ys) = e_p yl) by (by rewrite Hyl last_p_snoc).
    iAssert (f_data (e_p xl) ↦ W (e_d xl) ∗ (f_data (e_p xl) ↦ W (e_d xl) -∗ dseg (x :: xs) pv nx))%I
      with "[Hx]" as "[Hd Hx]".
    { rewrite Hxl dseg_snoc. iDestruct "Hx" as "[$ ($&$&$&$&$)]". iIntros "$". }
    rewrite Hlx. wp_load. iDestruct ("Hx" with "Hd") as "Hx".
    rewrite (dseg_cons y). iDestruct "Hy" as "[(#Hpy&Hny&Hvy&Hdy&Hiy) Hys]". cbn [hd_p]. wp_load.
    iAssert (dseg (y :: ys) pv2 nx2) with "[$Hpy $Hny $Hvy $Hdy $Hiy $Hys]" as "Hy".
    wp_bind. iApply ("Hcmp" with "[%] [%] HQ"); [done..|]. iIntros "HQ".
    destruct (decide (f log (e_d xl) (e_d y) ≤ 0)) as [Hle|Hgt].
    { rewrite -Hlx. change (e_p y) with (hd_p (y :: ys) 0). wp_bind. iApply (wp_chain_concat with "Hx Hy"); [done..|].
      iIntros "H". wp_ret. iSpecialize ("HΦ" $! _ ((x :: xs) ++ y :: ys) with "[] [//] [H] HQ").
      - iPureIntro. rewrite Hxl. by apply mrgd_le.
      - by iApply chainD_dseg.
      - rewrite ends_app //. }
    iAssert (f_data (e_p yl) ↦ W (e_d yl) ∗ (f_data (e_p yl) ↦ W (e_d yl) -∗ dseg (y :: ys) pv2 nx2))%I
      with "[Hy]" as "[Hd Hy]".
    { rewrite Hyl dseg_snoc. iDestruct "Hy" as "[$ ($&$&$&$&$)]". iIntros "$". }
    rewrite Hly. wp_load. iDestruct ("Hy" with "Hd") as "Hy".
    rewrite (dseg_cons x). iDestruct "Hx" as "[(#Hpx&Hnx&Hvx&Hdx&Hix) Hxs]". wp_load.
    iAssert (dseg (x :: xs) pv nx) with "[$Hpx $Hnx $Hvx $Hdx $Hix $Hxs]" as "Hx".
    wp_bind. iApply ("Hcmp" with "[%] [%] HQ"); [done..|]. iIntros "HQ".
    case_decide as Hlt.
    { rewrite -Hly. change (e_p x) with (hd_p (x :: xs) 0). wp_bind. iApply (wp_chain_concat with "Hy Hx"); [done..|].
      iIntros "H". wp_ret. iSpecialize ("HΦ" $! _ ((y :: ys) ++ x :: xs) with "[] [//] [H] HQ").
      - iPureIntro. eapply mrgd_gt; try done. lia.
      - by iApply chainD_dseg.
      - rewrite ends_app // Hlx //. }
    rewrite /chain_merge. cbn [fst snd]. rewrite -?Hlx -?Hly.
    iApply (wp_chain_merge_loop _ _ [] x xs y ys with "Hcmp Hx Hy HQ"); [done..|].
    iIntros (log' r pv' nx') "%Hm %Hr Hr HQ". iApply ("HΦ" with "[] [//] [Hr] HQ").
    - iPureIntro. eapply mrgd_merge; try done; lia.
    - by iApply chainD_dseg.
  Qed.

  (** ** Buckets *)
  Fixpoint val (segs : list (list elem)) : Z :=
    match segs with [] => 0 | s :: r => (if decide (s = []) then 0 else 1) + 2 * val r end.

  Definition bits_ok (bit : bits) (i : nat) (segs : list (list elem)) : Prop :=
    ∀ j s, segs !! j = Some s → s ≠ [] → bit !! (i + j)%nat = Some (Some (ends s)).

  Lemma val_nonneg segs : 0 ≤ val segs.
  Proof. induction segs as [|s r IH]; simpl; [done|]. case_decide; lia. Qed.

  Lemma val_odd s r : Z.land (val (s :: r)) 1 = if decide (s = []) then 0 else 1.
  Proof.
    change 1 with (Z.ones 1) at 1. rewrite Z.land_ones //. simpl val. change (2 ^ 1) with 2.
    rewrite (Z.mul_comm 2) Z.mod_add //. by case_decide.
  Qed.
  Lemma val_shr s r : shr (val (s :: r)) 1 = val r.
  Proof.
    rewrite /shr Z.shiftr_div_pow2 //. simpl val. change (2 ^ 1) with 2.
    rewrite (Z.mul_comm 2) Z.div_add //. case_decide; by rewrite Z.div_small.
  Qed.

  Definition chains (segs : list (list elem)) : iProp := [∗ list] s ∈ segs, chainD s.

  Lemma bits_ok_cons bit i s r : bits_ok bit i (s :: r) ↔
    (s ≠ [] → bit !! i = Some (Some (ends s))) ∧ bits_ok bit (S i) r.
  Proof.
    split.
    - intros Hb. split.
      + intros Hs. specialize (Hb 0%nat s eq_refl Hs). by rewrite Nat.add_0_r in Hb.
      + intros j t Hj Ht. specialize (Hb (S j) t Hj Ht). by rewrite Nat.add_succ_r in Hb.
    - intros [H1 H2] [|j] t Hj Ht.
      + injection Hj as ->. rewrite Nat.add_0_r. auto.
      + rewrite Nat.add_succ_r. by apply H2.
  Qed.
  Lemma bits_ok_insert bit i segs k c : (k < i)%nat → bits_ok bit i segs → bits_ok (<[k := c]> bit) i segs.
  Proof. intros Hk Hb j s Hj Hs. rewrite list_lookup_insert_ne; [by apply Hb|lia]. Qed.
  Lemma bits_ok_insert_top bit i segs k c : (i + length segs ≤ k)%nat → bits_ok bit i segs → bits_ok (<[k := c]> bit) i segs.
  Proof.
    intros Hk Hb j s Hj Hs. rewrite list_lookup_insert_ne; [by apply Hb|].
    apply lookup_lt_Some in Hj. lia.
  Qed.

  Lemma wp_bit_get bit (i : nat) z c Φ : z = Z.of_nat i → bit !! i = Some (Some c) → Φ c -∗ wp (bit_get bit z) Φ.
  Proof. iIntros (-> Hb) "HΦ". rewrite /bit_get Nat2Z.id Hb. by wp_ret. Qed.
  Lemma wp_bit_set bit (i : nat) z c Φ : z = Z.of_nat i → (i < length bit)%nat →
    Φ (<[i := Some c]> bit) -∗ wp (bit_set bit z c) Φ.
  Proof. iIntros (-> Hb) "HΦ". rewrite /bit_set Nat2Z.id decide_True //. by wp_ret. Qed.

  (** carry loop followed by the copy into the first empty bucket *)
  Lemma wp_chain_carry fuel cmp lfuel segs cur i la mask bit log Φ :
    length bit = 65%nat → (i + length segs < 64)%nat → (length segs ≤ lfuel)%nat →
    (length cur + sum_list (length <$> segs) ≤ fuel)%nat →
    bits_ok bit i segs → bit !! la = Some (Some (ends cur)) → cur ≠ [] →
    (i ≤ la → la = 64)%nat → mask = val segs → dok cur → Forall dok segs →
    cmp_spec cmp -∗ chainD cur -∗ chains segs -∗ Q log -∗
    (∀ log' segs' (i' la' : nat) bit' c, ⌜addc f log cur segs log' segs'⌝ -∗ ⌜length bit' = 65%nat⌝ -∗
       ⌜(i' < 65)%nat⌝ -∗ ⌜bit' !! la' = Some (Some c)⌝ -∗
       ⌜bits_ok (<[i' := Some c]> bit') i segs'⌝ -∗
       chains segs' -∗ Q log' -∗ Φ (Z.of_nat i', Z.of_nat la', bit')) -∗
    wp (chain_carry_loop fuel cmp lfuel (Z.of_nat i) mask (Z.of_nat la) bit) Φ.
  Proof.
    revert lfuel cur i la mask bit log Φ.
    induction segs as [|s segs IH]; intros lfuel cur i la mask bit log Φ Hlen Hi Hlf Hf Hb Hlast Hcur Hle Hmask HPc HPs; iIntros "#Hcmp Hcur Hsegs HQ HΦ".
    - assert (mask = 0) as -> by done.
      simpl in Hi.
      iSpecialize ("HΦ" $! log [cur] i la bit (ends cur) with "[] [//] [] [//] [] [Hcur] HQ").
      { iPureIntro; constructor. }
      { iPureIntro. lia. }
      { iPureIntro; apply bits_ok_cons; split; [rewrite list_lookup_insert //; lia|intros ?? Hn; by rewrite lookup_nil in Hn]. }
      { rewrite /chains /=; by iFrame. }
      destruct lfuel; cbn [chain_carry_loop]; (iApply wp_if_false; [intros Hn; by apply Hn|]); by wp_ret.
    - subst mask. destruct (decide (s = [])) as [->|Hs].
      + simpl in Hi.
        iSpecialize ("HΦ" $! log (cur :: segs) i la bit (ends cur) with "[] [//] [] [//] [] [Hcur Hsegs] HQ").
        { iPureIntro; constructor. }
        { iPureIntro. lia. }
        { iPureIntro; apply bits_ok_cons; split; [rewrite list_lookup_insert //; lia|].
          apply bits_ok_cons in Hb as [_ Hb]; apply bits_ok_insert; [lia|done]. }
        { rewrite /chains /=; iDestruct "Hsegs" as "[_ $]"; iFrame. }
        destruct lfuel; cbn [chain_carry_loop]; (iApply wp_if_false; [rewrite val_odd; intros Hn; by apply Hn|]); by wp_ret.
      + destruct lfuel as [|lfuel]; [simpl in Hlf; lia|]. cbn [chain_carry_loop].
        apply Forall_cons in HPs as [HPs HPs'].
        iApply wp_if_true. { rewrite val_odd. by case_decide. }
        pose proof (proj1 (bits_ok_cons _ _ _ _) Hb) as [Hbs Hb'].
        wp_bind. iApply wp_bit_get; [done|by apply Hbs|].
        wp_bind. iApply wp_bit_get; [done..|]. wp_bind.
        iDestruct "Hsegs" as "[Hs Hsegs]". cbn [length] in *. change (sum_list (length <$> s :: segs)) with (length s + sum_list (length <$> segs))%nat in Hf.
        iApply (wp_chain_merge_degenerated with "Hcmp Hs Hcur HQ"); [lia|done|done|done|done|].
        iIntros (log1 r) "%Hm %Hr Hr HQ". wp_bind.
        iApply wp_bit_set; [done|lia|].
        rewrite {1}/wrap. rewrite -> Z.mod_small by lia. replace (Z.of_nat i + 1) with (Z.of_nat (S i)) by lia.
        pose proof (Permutation_length (mrgd_perm _ _ _ _ _ _ Hm)) as Hlr. rewrite app_length in Hlr.
        iApply (IH with "Hcmp Hr Hsegs HQ").
        * by rewrite insert_length.
        * lia.
        * lia.
        * lia.
        * apply bits_ok_insert; [lia|done].
        * rewrite list_lookup_insert //. lia.
        * done.
        * lia.
        * apply (val_shr s segs).
        * apply (dok_perm _ _ (mrgd_perm _ _ _ _ _ _ Hm)). by apply Forall_app.
        * done.
        * iIntros (log' segs' i' la' bit' c) "%Ha %Hl2 %Hi' %Hc %Hb2 Hsegs HQ".
          iApply ("HΦ" with "[] [//] [//] [//] [] [Hsegs] HQ").
          -- iPureIntro. by eapply addc_full.
          -- iPureIntro. apply bits_ok_cons. by split.
          -- rewrite /chains /=. iFrame. iExists 0, 0. by rewrite /dseg.
  Qed.

  Definition wf_segs (segs : list (list elem)) : Prop := ∀ pre s, segs = pre ++ [s] → s ≠ [].

  Lemma wf_nil : wf_segs [].
  Proof. intros [|??] s Heq; done. Qed.
  Lemma wf_one s : s ≠ [] → wf_segs [s].
  Proof. intros Hs [|? [|??]] t Heq; simplify_eq/=; done. Qed.
  Lemma wf_cons s t r : wf_segs (t :: r) → wf_segs (s :: t :: r).
  Proof. intros Hw [|p pre] u Heq; simplify_eq/=. by eapply Hw. Qed.
  Lemma wf_tail s r : wf_segs (s :: r) → wf_segs r.
  Proof. intros Hw pre u ->. eapply (Hw (s :: pre)). done. Qed.

  Lemma wf_val segs : wf_segs segs → segs ≠ [] → 2 ^ (Z.of_nat (length segs) - 1) ≤ val segs.
  Proof.
    induction segs as [|s r IH]; intros Hw Hne; [done|].
    destruct r as [|t r].
    - simpl. rewrite decide_False //. by apply (Hw [] s).
    - specialize (IH (wf_tail _ _ Hw) ltac:(done)).
      change (val (s :: t :: r)) with ((if decide (s = []) then 0 else 1) + 2 * val (t :: r)).
      replace (2 ^ (Z.of_nat (length (s :: t :: r)) - 1)) with (2 * 2 ^ (Z.of_nat (length (t :: r)) - 1)).
      2:{ rewrite <- Z.pow_succ_r by (simpl; lia). f_equal. simpl. lia. }
      case_decide; lia.
  Qed.
  Lemma wf_length segs n : wf_segs segs → val segs < 2 ^ Z.of_nat n → (length segs ≤ n)%nat.
  Proof.
    intros Hw Hv. destruct (decide (segs = [])) as [->|Hne]; [simpl; lia|].
    pose proof (wf_val _ Hw Hne) as Hv2.
    destruct (decide (length segs ≤ n)%nat) as [|Hgt]; [done|].
    assert (2 ^ Z.of_nat n ≤ 2 ^ (Z.of_nat (length segs) - 1)); [|lia].
    apply Z.pow_le_mono_r; lia.
  Qed.

  Lemma mrgd_ne log xs ys log' r : mrgd f log xs ys log' r → r ≠ [].
  Proof.
    intros Hm. assert (xs ≠ []) as Hx.
    { destruct Hm; try done. by destruct xs. }
    apply mrgd_perm in Hm. intros ->. apply Permutation_nil in Hm. by destruct xs.
  Qed.
  Lemma addc_wf log cur segs log' segs' : cur ≠ [] → addc f log cur segs log' segs' →
    wf_segs segs → wf_segs segs' ∧ val segs' = val segs + 1 ∧ segs' ≠ [].
  Proof.
    intros Hc Ha. revert Hc. induction Ha as [| |log cur b segs log1 r log' segs' Hb Hm Ha IH]; intros Hc Hw.
    - split; [by apply wf_one|]. split; [|done]. simpl. by rewrite decide_False.
    - split; [|split; [|done]].
      + destruct segs as [|s r]; [by apply wf_one|]. apply wf_cons. by eapply wf_tail.
      + simpl. rewrite decide_False //. lia.
    - apply mrgd_ne in Hm. destruct (IH Hm (wf_tail _ _ Hw)) as (Hw'&Hv&Hne).
      split; [|split; [|done]].
      + destruct segs' as [|s' r']; [done|]. by apply wf_cons.
      + simpl. rewrite Hv decide_False //. lia.
  Qed.

  Lemma wp_chain_add fuel cmp segs x bit log Φ :
    length bit = 65%nat → (1 + sum_list (length <$> segs) ≤ fuel)%nat →
    wf_segs segs → val segs < 2 ^ 63 - 1 → bits_ok bit 0 segs → P (e_d x) → Forall dok segs →
    cmp_spec cmp -∗ chainD [x] -∗ chains segs -∗ Q log -∗
    (∀ log' segs' bit', ⌜addc f log [x] segs log' segs'⌝ -∗ ⌜length bit' = 65%nat⌝ -∗
       ⌜bits_ok bit' 0 segs'⌝ -∗ chains segs' -∗ Q log' -∗ Φ bit') -∗
    wp (chain_add fuel cmp (val segs) (e_p x) bit) Φ.
  Proof.
    iIntros (Hlen Hf Hw Hv Hb HPx HPs) "#Hcmp Hx Hsegs HQ HΦ". rewrite /chain_add.
    wp_bind. iApply (wp_bit_set _ 64%nat); [done|lia|]. wp_bind.
    assert (length segs ≤ 63)%nat by (apply wf_length; [done|]; change (2 ^ Z.of_nat 63) with (2 ^ 63); lia).
    iApply (wp_chain_carry fuel cmp 65 segs [x] 0%nat 64%nat with "Hcmp Hx Hsegs HQ"); try done.
    - by rewrite insert_length.
    - lia.
    - lia.
    - apply bits_ok_insert_top; [lia|done].
    - rewrite list_lookup_insert //. lia.
    - by apply Forall_singleton.
    - iIntros (log' segs' i' la' bit' c) "%Ha %Hl2 %Hi' %Hc %Hb2 Hsegs HQ".
      wp_bind. iApply wp_bit_get; [done..|]. iApply wp_bit_set; [done|lia|].
      iApply ("HΦ" with "[//] [] [//] Hsegs HQ"). by rewrite insert_length.
  Qed.

  Lemma dok_concat segs : dok (concat segs) ↔ Forall dok segs.
  Proof. rewrite /dok. apply Forall_concat. Qed.

  Lemma wp_chain_add_loop fuel cmp lfuel segs x xs pv nx bit log Φ :
    length bit = 65%nat → (length (x :: xs) + length (concat segs) ≤ fuel)%nat →
    (length (x :: xs) ≤ lfuel)%nat →
    wf_segs segs → val segs + Z.of_nat (length (x :: xs)) < 2 ^ 63 → bits_ok bit 0 segs →
    dok (x :: xs) → Forall dok segs →
    cmp_spec cmp -∗ dseg (x :: xs) pv nx -∗ chains segs -∗ Q log -∗
    (∀ log' segs' bit', ⌜adds f log (x :: xs) segs log' segs'⌝ -∗ ⌜length bit' = 65%nat⌝ -∗
       ⌜wf_segs segs' ∧ val segs' = (val segs + Z.of_nat (length (x :: xs)))%Z⌝ -∗
       ⌜bits_ok bit' 0 segs'⌝ -∗ chains segs' -∗ Q log' -∗ Φ (val segs', bit')) -∗
    wp (chain_add_loop fuel cmp lfuel (val segs) (e_p x) (last_p 0 (x :: xs)) bit) Φ.
  Proof.
    revert lfuel segs x pv bit log Φ.
    induction xs as [|x' xs IH]; intros lfuel segs x pv bit log Φ Hlen Hf Hlf Hw Hv Hb HPx HPs;
      iIntros "#Hcmp Hxs Hsegs HQ HΦ"; (apply Forall_cons in HPx as [HPx HPxs]); (destruct lfuel as [|lfuel]; [simpl in Hlf; lia|]).
    - cbn [chain_add_loop last_p]. rewrite dseg_cons. iDestruct "Hxs" as "[(#Hp&Hn&Hx) _]". wp_load.
      pose proof (val_nonneg segs).
      wp_bind. iApply (wp_chain_add with "Hcmp [Hn Hx] Hsegs HQ"); try done.
      { simpl in Hf. rewrite -length_concat. lia. }
      { simpl in Hv. lia. }
      { iExists pv, nx. rewrite dseg_cons. iFrame "# ∗". }
      iIntros (log' segs' bit') "%Ha %Hl %Hb' Hsegs HQ". wp_if. wp_ret.
      destruct (addc_wf _ [x] _ _ _ ltac:(done) Ha Hw) as (Hw'&Hv'&_).
      rewrite /wrap. rewrite -> Z.mod_small by (simpl in Hv; lia). rewrite -Hv'.
      iApply ("HΦ" with "[] [//] [//] [//] Hsegs HQ").
      iPureIntro. eapply adds_cons; [done|]. constructor.
    - cbn [chain_add_loop]. iDestruct (dseg_nodup with "Hxs") as %Hnd.
      rewrite dseg_cons. iDestruct "Hxs" as "[(#Hp&Hn&Hx) Hxs]". wp_load.
      pose proof (val_nonneg segs). cbn [length] in *.
      wp_bind. iApply (wp_chain_add with "Hcmp [Hn Hx] Hsegs HQ"); try done.
      { rewrite -length_concat. lia. }
      { lia. }
      { iExists pv, (hd_p (x' :: xs) nx). rewrite dseg_cons. iFrame "# ∗". }
      iIntros (log' segs' bit') "%Ha %Hl %Hb' Hsegs HQ".
      assert (e_p x ≠ last_p 0 (x :: x' :: xs)).
      { cbn [last_p]. intros Heq. rewrite !fmap_cons in Hnd. apply NoDup_cons in Hnd as [Hnin _]. apply Hnin.
        rewrite Heq. clear. revert x'. induction xs as [|z ys IH]; intros y'; [left|]. right. apply IH. }
      wp_if.
      destruct (addc_wf _ [x] _ _ _ ltac:(done) Ha Hw) as (Hw'&Hv'&_).
      rewrite {1}/wrap. rewrite -> Z.mod_small by lia. rewrite -Hv'.
      pose proof (Permutation_length (addc_perm _ _ _ _ _ _ Ha)) as Hpl. rewrite app_length /= in Hpl.
      change (last_p 0 (x :: x' :: xs)) with (last_p 0 (x' :: xs)).
      iApply (IH with "Hcmp Hxs Hsegs HQ"); [done|lia|lia|done|lia|done|done| |].
      { apply dok_concat. apply (dok_perm _ _ (addc_perm _ _ _ _ _ _ Ha)).
        apply Forall_app. split; [by apply Forall_singleton|by apply dok_concat]. }
      iIntros (log2 segs2 bit2) "%Hs %Hl2 %Hwv %Hb2 Hsegs HQ".
      iApply ("HΦ" with "[] [//] [] [//] Hsegs HQ").
      { iPureIntro. by eapply adds_cons. }
      { iPureIntro. split; [tauto|]. destruct Hwv as [_ ->]. lia. }
  Qed.

  Lemma val_0_empties segs : val segs = 0 → segs = replicate (length segs) [].
  Proof.
    induction segs as [|s r IH]; [done|]. simpl. pose proof (val_nonneg r). case_decide; [|lia].
    intros. subst. f_equal. apply IH. lia.
  Qed.
  Lemma finm_empties log cur k : finm f log cur (replicate k []) log cur.
  Proof. induction k; simpl; by constructor. Qed.

  Lemma wp_chain_final_loop fuel cmp lfuel segs cur i b bit log Φ :
    length bit = 65%nat → (i + length segs < 65)%nat → (length segs ≤ lfuel)%nat →
    (length cur + length (concat segs) ≤ fuel)%nat → cur ≠ [] →
    bits_ok bit i (cur :: segs) → 0 ≤ b ≤ 1 → 1 ≤ b + 2 * val segs →
    dok cur → Forall dok segs →
    cmp_spec cmp -∗ chainD cur -∗ chains segs -∗ Q log -∗
    (∀ log' r (i' : nat) bit', ⌜finm f log cur segs log' r⌝ -∗ ⌜r ≠ []⌝ -∗
       ⌜bit' !! i' = Some (Some (ends r))⌝ -∗ chainD r -∗ Q log' -∗ Φ (Z.of_nat i', bit')) -∗
    wp (chain_final_loop fuel cmp lfuel (Z.of_nat i) (b + 2 * val segs) bit) Φ.
  Proof.
    revert lfuel cur i b bit log Φ.
    induction segs as [|s segs IH]; intros lfuel cur i b bit log Φ Hlen Hi Hlf Hf Hc Hb Hbb Hm HPc HPs;
      iIntros "#Hcmp Hcur Hsegs HQ HΦ".
    - pose proof (proj1 (bits_ok_cons _ _ _ _) Hb) as [Hbs _].
      iSpecialize ("HΦ" with "[] [//] [] Hcur HQ"); [iPureIntro; constructor|iPureIntro; by apply Hbs|].
      simpl in Hm. destruct lfuel; cbn [chain_final_loop val]; wp_if; by wp_ret.
    - pose proof (proj1 (bits_ok_cons _ _ _ _) Hb) as [Hbs Hb'].
      pose proof (val_nonneg (s :: segs)).
      destruct (decide (b + 2 * val (s :: segs) = 1)) as [Hz|Hnz].
      { iSpecialize ("HΦ" with "[] [//] [] Hcur HQ").
        { iPureIntro. assert (val (s :: segs) = 0) as Hz' by lia. rewrite (val_0_empties _ Hz'). apply finm_empties. }
        { iPureIntro; by apply Hbs. }
        rewrite Hz. destruct lfuel; cbn [chain_final_loop]; wp_if; by wp_ret. }
      destruct lfuel as [|lfuel]; [simpl in Hlf; lia|]. cbn [chain_final_loop].
      wp_if.
      assert (shr (b + 2 * val (s :: segs)) 1 = val (s :: segs)) as ->.
      { rewrite /shr Z.shiftr_div_pow2 //. change (2 ^ 1) with 2. rewrite (Z.mul_comm 2) Z.div_add //.
        rewrite Z.div_small; lia. }
      cbn [length] in *. simpl concat in Hf. rewrite app_length in Hf.
      assert (wrap (Z.of_nat i + 1) = Z.of_nat (S i)) as ->.
      { rewrite /wrap. rewrite -> Z.mod_small by lia. lia. }
      pose proof (proj1 (bits_ok_cons _ _ _ _) Hb') as [Hbs' Hb''].
      rewrite /chains big_sepL_cons. iDestruct "Hsegs" as "[Hs Hsegs]".
      apply Forall_cons in HPs as [HPs HPs'].
      destruct (decide (s = [])) as [->|Hs].
      + wp_bind. iApply wp_if_false. { rewrite val_odd; intros Hn; by apply Hn. }
        wp_bind. iApply wp_bit_get; [done|by apply Hbs|]. iApply wp_bit_set; [done|lia|].
        change (val ([] :: segs)) with (0 + 2 * val segs) in *.
        iApply (IH with "Hcmp Hcur Hsegs HQ").
        * by rewrite insert_length.
        * lia.
        * lia.
        * simpl in Hf. lia.
        * done.
        * apply bits_ok_cons. split; [rewrite list_lookup_insert //; lia|]. apply bits_ok_insert; [lia|done].
        * lia.
        * lia.
        * done.
        * done.
        * iIntros (log' r i' bit') "%Hfin". iApply "HΦ". iPureIntro. by constructor.
      + wp_bind. iApply wp_if_true. { rewrite val_odd. by case_decide. }
        wp_bind. iApply wp_bit_get; [done|by apply Hbs'|].
        wp_bind. iApply wp_bit_get; [done|by apply Hbs|]. wp_bind.
        iApply (wp_chain_merge_degenerated with "Hcmp Hs Hcur HQ"); [lia|done|done|done|done|].
        iIntros (log1 r) "%Hmd %Hr Hr HQ".
        iApply wp_bit_set; [done|lia|].
        assert (val (s :: segs) = 1 + 2 * val segs) as -> by (simpl; by rewrite decide_False).
        pose proof (Permutation_length (mrgd_perm _ _ _ _ _ _ Hmd)) as Hlr. rewrite app_length in Hlr.
        pose proof (val_nonneg segs).
        iApply (IH with "Hcmp Hr Hsegs HQ").
        * by rewrite insert_length.
        * lia.
        * lia.
        * lia.
        * done.
        * apply bits_ok_cons. split; [rewrite list_lookup_insert //; lia|]. apply bits_ok_insert; [lia|done].
        * lia.
        * lia.
        * apply (dok_perm _ _ (mrgd_perm _ _ _ _ _ _ Hmd)). by apply Forall_app.
        * done.
        * iIntros (log' r' i' bit') "%Hfin". iApply "HΦ". iPureIntro. by eapply finm_full.
  Qed.

  Lemma val_split segs : val segs ≠ 0 → ∃ k cur suf, segs = replicate k [] ++ cur :: suf ∧ cur ≠ [] ∧
    builtin_ctz (val segs) = Z.of_nat k ∧ shr (val segs) (Z.of_nat k) = 1 + 2 * val suf.
  Proof.
    induction segs as [|s r IH]; [done|]. intros Hv.
    pose proof (val_nonneg r).
    destruct (decide (s = [])) as [->|Hs].
    - change (val ([] :: r)) with (2 * val r) in *.
      destruct IH as (k&cur&suf&->&Hc&Hk&Hsh); [lia|].
      exists (S k), cur, suf. split; [done|]. split; [done|].
      set (v := val (replicate k [] ++ cur :: suf)) in *. split.
      + destruct (builtin_ctz_bits v) as (?&Ht&Hlow); [lia|]. rewrite Hk in Ht, Hlow.
        destruct (builtin_ctz_bits (2 * v)) as (?&Ht2&Hlow2); [lia|].
        set (c := builtin_ctz (2 * v)) in *.
        assert (c ≠ 0). { intros E. rewrite E in Ht2. by rewrite Z.testbit_even_0 in Ht2. }
        assert (Hb : ∀ i, 0 ≤ i → Z.testbit (2 * v) (Z.succ i) = Z.testbit v i).
        { intros i Hi. by apply Z.testbit_even_succ. }
        destruct (Z.lt_trichotomy c (Z.of_nat (S k))) as [Hlt|[He|Hgt]]; [|done|].
        * replace c with (Z.succ (c - 1)) in Ht2 by lia. rewrite -> Hb in Ht2 by lia. rewrite -> Hlow in Ht2 by lia. done.
        * specialize (Hlow2 (Z.succ (Z.of_nat k)) ltac:(lia)). rewrite -> Hb in Hlow2 by lia. by rewrite Ht in Hlow2.
      + rewrite -Hsh. rewrite /shr. replace (Z.of_nat (S k)) with (1 + Z.of_nat k) by lia.
        rewrite <- Z.shiftr_shiftr by lia. f_equal. rewrite Z.shiftr_div_pow2 //. change (2 ^ 1) with 2.
        rewrite Z.mul_comm Z.div_mul //.
    - exists 0%nat, s, r. split; [done|]. split; [done|].
      assert (val (s :: r) = 1 + 2 * val r) as -> by (simpl; by rewrite decide_False).
      split; [|done].
      destruct (builtin_ctz_bits (1 + 2 * val r)) as (?&Ht&Hlow); [lia|].
      destruct (decide (builtin_ctz (1 + 2 * val r) = 0)); [done|].
      specialize (Hlow 0 ltac:(lia)). rewrite Z.add_comm Z.testbit_odd_0 in Hlow. done.
  Qed.

  Lemma bits_ok_app bit i pre suf : bits_ok bit i (pre ++ suf) → bits_ok bit (i + length pre) suf.
  Proof.
    intros Hb j s Hj Hs. rewrite -Nat.add_assoc. apply Hb; [|done].
    rewrite -> lookup_app_r by lia. by replace (length pre + j - length pre)%nat with j by lia.
  Qed.

  Lemma wp_chain_mergesort fuel cmp xs pv nx log Φ :
    xs ≠ [] → (length xs ≤ fuel)%nat → Z.of_nat (length xs) < 2 ^ 63 → dok xs →
    cmp_spec cmp -∗ dseg xs pv nx -∗ Q log -∗
    (∀ log' r, ⌜msort f log xs log' r⌝ -∗ ⌜r ≠ []⌝ -∗ chainD r -∗ Q log' -∗ Φ (ends r)) -∗
    wp (chain_mergesort fuel (ends xs) cmp) Φ.
  Proof.
    iIntros (Hne Hf HN HP) "#Hcmp Hxs HQ HΦ". destruct xs as [|x xs]; [done|].
    rewrite /chain_mergesort. cbn [fst snd ends hd_p]. wp_bind. change 0 with (val []) at 1.
    iApply (wp_chain_add_loop with "Hcmp Hxs [] HQ").
    { done. } { simpl in *. lia. } { done. } { apply wf_nil. } { done. }
    { intros ?? Hn. by rewrite lookup_nil in Hn. }
    { done. } { constructor. }
    { by rewrite /chains. }
    iIntros (log1 segs1 bit1) "%Ha %Hl %Hwv %Hb Hsegs HQ". destruct Hwv as [Hw Hv].
    change (val []) with 0 in Hv.
    destruct (val_split segs1) as (k&cur&suf&->&Hc&Hk&Hsh); [cbn [length] in Hv; lia|].
    set (v := val _) in *.
    wp_bind. rewrite /ctz. iApply wp_if_false; [cbn [length] in Hv; lia|]. wp_ret.
    rewrite /ctz_u64_gnuc Hk Hsh. wp_bind.
    rewrite /chains big_sepL_app big_sepL_cons. iDestruct "Hsegs" as "[_ [Hcur Hsegs]]".
    assert (Forall dok (replicate k [] ++ cur :: suf)) as [_ [HPc HPs]%Forall_cons]%Forall_app.
    { apply dok_concat. apply (dok_perm _ _ (adds_perm _ _ _ _ _ _ Ha)). simpl. by rewrite ?app_nil_r. }
    pose proof (Permutation_length (adds_perm _ _ _ _ _ _ Ha)) as Hpl.
    rewrite concat_app concat_replicate_nil /= !app_length /= Nat.add_0_r in Hpl.
    assert (length (replicate k ([] : list elem) ++ cur :: suf) ≤ 63)%nat as Hlen.
    { apply wf_length; [done|]. change (2 ^ Z.of_nat 63) with (2 ^ 63). fold v. lia. }
    rewrite app_length replicate_length /= in Hlen.
    iApply (wp_chain_final_loop with "Hcmp Hcur Hsegs HQ").
    { done. } { lia. } { lia. } { simpl in Hf. lia. } { done. }
    { apply bits_ok_app in Hb. by rewrite replicate_length in Hb. }
    { lia. } { pose proof (val_nonneg suf). lia. } { done. } { done. }
    iIntros (log' r i' bit') "%Hfin %Hr %Hi Hr HQ". iApply wp_bit_get; [done..|].
    iApply ("HΦ" with "[] [//] Hr HQ"). iPureIntro. by eapply msort_run.
  Qed.

  Lemma wp_list_sort fuel l cmp xs log Φ :
    (length xs ≤ fuel)%nat → Z.of_nat (length xs) < 2 ^ 63 → dok xs →
    cmp_spec cmp -∗ lst l xs -∗ Q log -∗
    (∀ log' r, ⌜msort f log xs log' r⌝ -∗ lst l r -∗ Q log' -∗ Φ tt) -∗
    wp (list_sort fuel l cmp) Φ.
  Proof.
    iIntros (Hf HN HP) "#Hcmp Hl HQ HΦ". rewrite /list_sort. wp_bind. iApply (wp_list_empty with "Hl").
    iIntros "Hl". destruct xs as [|x xs].
    { rewrite bool_decide_eq_true_2 //. wp_if. wp_ret. iApply ("HΦ" with "[] Hl HQ"). iPureIntro. constructor. }
    rewrite bool_decide_eq_false_2 //. wp_if. rewrite /lst /list_head. iDestruct "Hl" as "[Hl Hxs]". wp_load.
    iDestruct (dseg_ends with "Hxs") as "(%Hhp&Hhp&Htn&Hxs)"; first done.
    wp_load. iDestruct ("Hxs" with "Hhp Htn") as "Hxs".
    wp_bind. iApply (wp_chain_mergesort fuel cmp (x :: xs) with "Hcmp Hxs HQ"); [done..|].
    iIntros (log' r) "%Hs %Hr (%pv&%nx&Hr) HQ". rewrite /list_set. cbn [fst snd ends].
    iDestruct (dseg_ends with "Hr") as "(%Hhp2&Hhp&Htn&Hr)"; first done.
    wp_store. wp_store. wp_store. iApply ("HΦ" with "[//] [-HQ] HQ"). iFrame.
    iApply ("Hr" with "Hhp Htn").
  Qed.
End chain.
