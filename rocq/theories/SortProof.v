(** * Pure facts about the merge sort: order, stability, number of comparisons *)
From Verif Require Export Client ChainProof.
Global Open Scope Z_scope.

Section order.
  Context (c : Z → Z → Z) (Hc : total_preorder c).
  Notation f := (λ _ : clog, c).
  Notation le := (λ x y, c (e_d x) (e_d y) ≤ 0).
  Notation sorted := (StronglySorted le).

  Lemma c_gt a b : c a b > 0 ↔ c b a < 0.
  Proof. destruct Hc as [Ha _]. specialize (Ha a b). lia. Qed.
  Lemma c_refl a : c a a = 0.
  Proof. destruct Hc as [Ha _]. specialize (Ha a a). lia. Qed.
  Lemma c_trans a b d : c a b ≤ 0 → c b d ≤ 0 → c a d ≤ 0.
  Proof. apply Hc. Qed.
  Lemma c_le_lt a b d : c a b ≤ 0 → c b d < 0 → c a d < 0.
  Proof.
    intros H1 H2. destruct (decide (c a d < 0)); [done|].
    assert (c d a ≤ 0) by (destruct Hc as [Ha _]; specialize (Ha a d); lia).
    assert (c d b ≤ 0) by (by eapply c_trans). apply c_gt in H2. lia.
  Qed.
  Lemma c_lt_le a b d : c a b < 0 → c b d ≤ 0 → c a d < 0.
  Proof.
    intros H1 H2. destruct (decide (c a d < 0)); [done|].
    assert (c d a ≤ 0) by (destruct Hc as [Ha _]; specialize (Ha a d); lia).
    assert (c b a ≤ 0) by (by eapply c_trans). apply c_gt in H1. lia.
  Qed.
  Lemma c_lt_eq a b z : c a b < 0 → c a z = 0 → c b z = 0 → False.
  Proof.
    intros H1 H2 H3. assert (c z b ≤ 0) by (destruct Hc as [Ha _]; specialize (Ha b z); lia).
    assert (c z a = 0) by (destruct Hc as [Ha _]; specialize (Ha a z); lia).
    pose proof (c_le_lt z a b ltac:(lia) H1).
    destruct Hc as [Ha _]; specialize (Ha b z); lia.
  Qed.

  (** elements equivalent to [z] *)
  Notation eqz z := (λ x, c (e_d x) z = 0).
  Definition stab (xs r : list elem) : Prop := ∀ z, filter (eqz z) r = filter (eqz z) xs.

  Lemma stab_refl xs : stab xs xs.
  Proof. done. Qed.
  Lemma stab_app xs ys r s : stab xs r → stab ys s → stab (xs ++ ys) (r ++ s).
  Proof. intros H1 H2 z. by rewrite !filter_app H1 H2. Qed.
  Lemma stab_trans xs ys zs : stab xs ys → stab ys zs → stab xs zs.
  Proof. intros H1 H2 z. by rewrite H2 H1. Qed.

  Lemma filter_none z y xs : Forall (λ x, c (e_d y) (e_d x) < 0) xs → c (e_d y) z = 0 → filter (eqz z) xs = [].
  Proof.
    intros Hf Hy. induction Hf as [|x xs Hx Hf IH]; [done|].
    rewrite filter_cons_False //. intros Hz. by eapply c_lt_eq.
  Qed.

  Lemma mrg_sorted log xs ys log' r : mrg f log xs ys log' r → sorted xs → sorted ys →
    sorted r ∧ stab (xs ++ ys) r.
  Proof.
    induction 1 as [| |log x xs y ys log' r Hf Hm IH|log x xs y ys log' r Hf Hm IH]; intros Hx Hy.
    - done.
    - by rewrite app_nil_r.
    - pose proof (StronglySorted_inv Hx) as [Hxs Hxa]. pose proof (StronglySorted_inv Hy) as [Hys Hya].
      destruct (IH Hxs Hy) as [Hr Hs]. split.
      + constructor; [done|]. rewrite (mrg_perm _ _ _ _ _ _ Hm). apply Forall_app. split; [done|].
        constructor; [done|]. eapply Forall_impl; [done|]. intros w Hw. simpl in *. by eapply c_trans.
      + by apply (stab_app [x] (xs ++ y :: ys) [x] r).
    - pose proof (StronglySorted_inv Hx) as [Hxs Hxa]. pose proof (StronglySorted_inv Hy) as [Hys Hya].
      destruct (IH Hx Hys) as [Hr Hs].
      assert (Hlt : Forall (λ w, c (e_d y) (e_d w) < 0) (x :: xs)).
      { apply c_gt in Hf. constructor; [done|]. eapply Forall_impl; [done|]. intros w Hw. by eapply c_lt_le. }
      split.
      + constructor; [done|]. rewrite (mrg_perm _ _ _ _ _ _ Hm). apply Forall_app. split; [|done].
        eapply Forall_impl; [done|]. simpl. intros; lia.
      + intros z. rewrite filter_app. destruct (decide (c (e_d y) z = 0)) as [Hz|Hz].
        * rewrite !(filter_cons_True _ y) // (filter_none z y (x :: xs)) // Hs filter_app (filter_none z y (x :: xs)) //.
        * rewrite !(filter_cons_False _ y) // Hs filter_app //.
  Qed.

  Lemma sorted_snoc xs x : sorted (xs ++ [x]) → Forall (λ w, c (e_d w) (e_d x) ≤ 0) (xs ++ [x]).
  Proof.
    induction xs as [|y xs IH]; simpl; intros Hs.
    - constructor; [|done]. rewrite c_refl. done.
    - apply StronglySorted_inv in Hs as [Hs Ha]. constructor; [|by apply IH].
      apply Forall_app in Ha as [_ Ha]. by inversion Ha.
  Qed.
  Lemma sorted_app xs ys : sorted xs → sorted ys → Forall (λ x, Forall (λ y, c (e_d x) (e_d y) ≤ 0) ys) xs →
    sorted (xs ++ ys).
  Proof.
    intros Hx Hy Hf. induction Hx as [|x xs Hx IH Ha]; [done|]. simpl.
    inversion_clear Hf. constructor; [by apply IH|]. apply Forall_app. done.
  Qed.

  Lemma mrgd_sorted log xs ys log' r : mrgd f log xs ys log' r → sorted xs → sorted ys →
    sorted r ∧ stab (xs ++ ys) r.
  Proof.
    destruct 1 as [log xs xl y ys Hf|log x xs xs' xl y ys ys' yl log1 Hxe Hye Hf1 Hl1 Hf2
      |log x xs xs' xl y ys ys' yl log1 log' r Hxe Hye Hf1 Hl1 Hf2 Hm]; intros Hx Hy.
    - split; [|done]. apply sorted_app; [done..|].
      apply sorted_snoc in Hx. eapply Forall_impl; [done|]. intros w Hw. simpl in Hw.
      apply StronglySorted_inv in Hy as [_ Hya]. constructor; [by eapply c_trans|].
      eapply Forall_impl; [done|]. intros v Hv. eapply c_trans; [done|]. by eapply c_trans.
    - assert (Hlt : Forall (λ y, Forall (λ x, c (e_d y) (e_d x) < 0) (x :: xs)) (y :: ys)).
      { rewrite Hye in Hy |- *. apply sorted_snoc in Hy. eapply Forall_impl; [done|]. intros w Hw. simpl in Hw.
        assert (c (e_d w) (e_d x) < 0) by (by eapply c_le_lt).
        apply StronglySorted_inv in Hx as [_ Hxa]. constructor; [done|].
        eapply Forall_impl; [done|]. intros v Hv. by eapply c_lt_le. }
      split.
      + apply sorted_app; [done..|]. eapply Forall_impl; [exact Hlt|]. simpl. intros w Hw.
        eapply Forall_impl; [done|]. simpl. intros; lia.
      + intros z. rewrite !filter_app.
        destruct (filter (eqz z) (y :: ys)) as [|w ws] eqn:E; [by rewrite app_nil_r|].
        assert (w ∈ filter (eqz z) (y :: ys)) as Hw by (rewrite E; left).
        apply elem_of_list_filter in Hw as [Hw1 Hw2].
        assert (Hn : filter (eqz z) (x :: xs) = []).
        { apply (filter_none z w); [|done]. rewrite Forall_forall in Hlt. by apply Hlt. }
        rewrite Hn app_nil_r //.
    - by eapply mrg_sorted.
  Qed.

  Definition cat (segs : list (list elem)) : list elem := concat (rev segs).
  Lemma cat_cons s r : cat (s :: r) = cat r ++ s.
  Proof. rewrite /cat /= concat_app /= app_nil_r //. Qed.

  Lemma addc_sorted log cur segs log' segs' : addc f log cur segs log' segs' → sorted cur → Forall (StronglySorted le) segs →
    Forall (StronglySorted le) segs' ∧ stab (cat segs ++ cur) (cat segs').
  Proof.
    induction 1 as [log cur|log cur segs|log cur b segs log1 r log' segs' Hb Hm Ha IH]; intros Hcur Hs.
    - split; [by constructor|]. by rewrite /cat /= app_nil_r.
    - inversion_clear Hs. split; [by constructor|]. rewrite !cat_cons app_nil_r. done.
    - inversion_clear Hs as [|?? Hsb Hss]. destruct (mrgd_sorted _ _ _ _ _ Hm Hsb Hcur) as [Hr Hst].
      destruct (IH Hr Hss) as [Hs' Hst']. split; [by constructor; [constructor|]|].
      rewrite !cat_cons app_nil_r -assoc. eapply stab_trans; [|done]. by apply stab_app.
  Qed.
  Lemma adds_sorted log xs segs log' segs' : adds f log xs segs log' segs' → Forall (StronglySorted le) segs →
    Forall (StronglySorted le) segs' ∧ stab (cat segs ++ xs) (cat segs').
  Proof.
    induction 1 as [log segs|log x xs segs log1 segs1 log' segs' Ha Hs IH]; intros Hss.
    - rewrite app_nil_r. done.
    - destruct (addc_sorted _ _ _ _ _ Ha) as [H1 H2]; [by repeat constructor|done|].
      destruct (IH H1) as [H3 H4]. split; [done|].
      eapply stab_trans; [|done]. change (x :: xs) with ([x] ++ xs). rewrite assoc. by apply stab_app.
  Qed.
  Lemma finm_sorted log cur segs log' r : finm f log cur segs log' r → sorted cur → Forall (StronglySorted le) segs →
    sorted r ∧ stab (cat segs ++ cur) r.
  Proof.
    induction 1 as [log cur|log cur segs log' r Hf IH|log cur b segs log1 r log' r' Hb Hm Hf IH]; intros Hcur Hs.
    - done.
    - inversion_clear Hs. rewrite cat_cons app_nil_r. auto.
    - inversion_clear Hs as [|?? Hsb Hss]. destruct (mrgd_sorted _ _ _ _ _ Hm Hsb Hcur) as [Hr Hst].
      destruct (IH Hr Hss) as [Hs' Hst']. split; [done|].
      rewrite cat_cons -assoc. eapply stab_trans; [|done]. by apply stab_app.
  Qed.
  Lemma cat_replicate k : cat (replicate k []) = [].
  Proof. induction k; [done|]. simpl. by rewrite cat_cons IHk. Qed.
  Lemma cat_app a b : cat (a ++ b) = cat b ++ cat a.
  Proof. rewrite /cat rev_app_distr concat_app //. Qed.

  Lemma msort_sorted log xs log' r : msort f log xs log' r → sorted r ∧ stab xs r.
  Proof.
    destruct 1 as [log|log xs log1 k cur segs log' r Hx Ha Hcur Hf]; [by split; [constructor|]|].
    destruct (adds_sorted _ _ _ _ _ Ha) as [H1 H2]; [done|].
    apply Forall_app in H1 as [_ H1]. inversion_clear H1.
    destruct (finm_sorted _ _ _ _ _ Hf) as [H3 H4]; [done..|]. split; [done|].
    eapply stab_trans; [|done]. rewrite cat_app cat_cons cat_replicate app_nil_r in H2. done.
  Qed.
End order.

(** ** Number of comparisons, for any comparator *)
Section count.
  Context (f : clog → Z → Z → Z).
  Notation len l := (Z.of_nat (length l)).

  Lemma mrg_count log xs ys log' r : mrg f log xs ys log' r →
    len log ≤ len log' ∧ (xs = [] ∨ ys = [] → log' = log) ∧
    (xs ≠ [] → ys ≠ [] → len log' + 1 ≤ len log + len xs + len ys).
  Proof.
    induction 1 as [| |log x xs y ys log' r Hf Hm IH|log x xs y ys log' r Hf Hm IH].
    - split_and!; [done|done|done].
    - split_and!; [done|done|done].
    - destruct IH as (H1&H2&H3). rewrite !app_length /= in H1, H3. split_and!; [lia|by intros [?|?]|].
      intros _ _. destruct xs as [|x' xs].
      + rewrite H2; [|by left]. rewrite app_length /=. lia.
      + specialize (H3 ltac:(done) ltac:(done)). simpl in *. lia.
    - destruct IH as (H1&H2&H3). rewrite !app_length /= in H1, H3. split_and!; [lia|by intros [?|?]|].
      intros _ _. destruct ys as [|y' ys].
      + rewrite H2; [|by right]. rewrite app_length /=. lia.
      + specialize (H3 ltac:(done) ltac:(done)). simpl in *. lia.
  Qed.
  Lemma mrgd_count log xs ys log' r : mrgd f log xs ys log' r →
    len log' ≤ len log + len xs + len ys + 1.
  Proof.
    destruct 1 as [log xs xl y ys Hf|log x xs xs' xl y ys ys' yl log1 Hxe Hye Hf1 Hl1 Hf2
      |log x xs xs' xl y ys ys' yl log1 log' r Hxe Hye Hf1 Hl1 Hf2 Hm].
    - rewrite !app_length /=. lia.
    - subst log1. rewrite !app_length /=. lia.
    - apply mrg_count in Hm as (_&_&Hm). specialize (Hm ltac:(done) ltac:(done)). subst log1.
      rewrite !app_length /= in Hm. simpl in *. lia.
  Qed.

  (** cost attributed to a bucket of index [j] *)
  Definition wt (j : Z) : Z := 2 ^ j * j + 2 ^ j - 1.
  Lemma wt_succ j : 0 ≤ j → 2 * wt j + 2 ^ (j + 1) + 1 = wt (j + 1).
  Proof. intros Hj. rewrite /wt Z.pow_add_r //. lia. Qed.
  Fixpoint pot (j : Z) (segs : list (list elem)) : Z :=
    match segs with [] => 0 | s :: r => (if decide (s = []) then 0 else wt j) + pot (j + 1) r end.
  Fixpoint sized (j : Z) (segs : list (list elem)) : Prop :=
    match segs with [] => True | s :: r => (s = [] ∨ len s = 2 ^ j) ∧ sized (j + 1) r end.

  Lemma addc_count log cur segs log' segs' : addc f log cur segs log' segs' →
    ∀ j, 0 ≤ j → len cur = 2 ^ j → sized j segs →
    sized j segs' ∧ len log' + pot j segs + wt j ≤ len log + pot j segs'.
  Proof.
    assert (Hne : ∀ (s : list elem) j, 0 ≤ j → len s = 2 ^ j → s ≠ []).
    { intros s j Hj Hs ->. pose proof (Z.pow_pos_nonneg 2 j). simpl in Hs. lia. }
    induction 1 as [log cur|log cur segs|log cur b segs log1 r log' segs' Hb Hm Ha IH]; intros j Hj Hcur Hs.
    - split; [simpl; auto|]. simpl. rewrite -> decide_False by (by eapply Hne). lia.
    - simpl in *. split; [tauto|]. rewrite -> decide_False by (by eapply Hne). lia.
    - simpl in Hs. destruct Hs as [[?|Hlb] Hs]; [done|].
      pose proof (Permutation_length (mrgd_perm _ _ _ _ _ _ Hm)) as Hlr. rewrite app_length in Hlr.
      pose proof (mrgd_count _ _ _ _ _ Hm) as Hcnt.
      assert (Hp : 2 ^ (j + 1) = 2 * 2 ^ j) by (rewrite Z.pow_add_r //; lia).
      destruct (IH (j + 1)) as [Hs' Hc']; [lia|lia|done|].
      split; [simpl; auto|]. simpl pot. rewrite (decide_False (P:=b = [])) //.
      pose proof (wt_succ j Hj). try rewrite decide_True //; lia.
  Qed.
  Lemma adds_count log xs segs log' segs' : adds f log xs segs log' segs' → sized 0 segs →
    sized 0 segs' ∧ len log' + pot 0 segs ≤ len log + pot 0 segs'.
  Proof.
    induction 1 as [log segs|log x xs segs log1 segs1 log' segs' Ha Hs IH]; intros Hz.
    - split; [done|lia].
    - destruct (addc_count _ _ _ _ _ Ha 0) as [H1 H2]; [done..|].
      destruct (IH H1) as [H3 H4]. split; [done|]. change (wt 0) with 0 in H2. lia.
  Qed.
  Lemma finm_count log cur segs log' r : finm f log cur segs log' r →
    ∀ j w, 0 ≤ j → sized j segs → w ≤ len cur * j + len cur - 1 →
    let n := len cur + len (concat segs) in
    len log' + w + pot j segs ≤ len log + n * (j + len segs) + n - 1.
  Proof.
    induction 1 as [log cur|log cur segs log' r Hf IH|log cur b segs log1 r log' r' Hb Hm Hf IH]; intros j w Hj Hz Hw n.
    - subst n. simpl. lia.
    - subst n. simpl in *. destruct Hz as [_ Hz].
      specialize (IH (j + 1) w ltac:(lia) Hz ltac:(nia)). simpl in IH. nia.
    - simpl in Hz. destruct Hz as [[?|Hlb] Hz]; [done|].
      pose proof (Permutation_length (mrgd_perm _ _ _ _ _ _ Hm)) as Hlr. rewrite app_length in Hlr.
      pose proof (mrgd_count _ _ _ _ _ Hm) as Hcnt.
      set (w' := (w + wt j + len b + len cur + 1)).
      specialize (IH (j + 1) w' ltac:(lia) Hz).
      assert (Hw' : w' ≤ len r * (j + 1) + len r - 1).
      { subst w'. rewrite /wt -Hlb. rewrite Hlr. nia. }
      specialize (IH Hw'). subst n w'. simpl in *. rewrite app_length.
      rewrite (decide_False (P:=b = [])) //. nia.
  Qed.

  Lemma pot_replicate j k cur segs : cur ≠ [] →
    pot j (replicate k [] ++ cur :: segs) = wt (j + Z.of_nat k) + pot (j + Z.of_nat k + 1) segs.
  Proof.
    intros Hc. revert j. induction k as [|k IH]; intros j; simpl.
    - rewrite decide_False // Z.add_0_r //.
    - rewrite IH. replace (j + 1 + Z.of_nat k) with (j + Z.of_nat (S k)) by lia. lia.
  Qed.
  Lemma sized_replicate j k cur segs : sized j (replicate k [] ++ cur :: segs) →
    (cur = [] ∨ len cur = 2 ^ (j + Z.of_nat k)) ∧ sized (j + Z.of_nat k + 1) segs.
  Proof.
    revert j. induction k as [|k IH]; intros j; simpl.
    - by rewrite Z.add_0_r.
    - intros [_ Hs]. apply IH in Hs. by replace (j + 1 + Z.of_nat k) with (j + Z.of_nat (S k)) in Hs by lia.
  Qed.
  Lemma sized_last j segs s : sized j (segs ++ [s]) → s ≠ [] → len s = 2 ^ (j + len segs).
  Proof.
    revert j. induction segs as [|t segs IH]; intros j; simpl.
    - intros [[?|?] _]; [done|]. by rewrite Z.add_0_r.
    - intros [_ Hs] Hne. rewrite (IH _ Hs Hne). f_equal. lia.
  Qed.

  Lemma adds_wf log xs segs log' segs' : adds f log xs segs log' segs' → wf_segs segs → wf_segs segs'.
  Proof.
    induction 1 as [log segs|log x xs segs log1 segs1 log' segs' Ha Hs IH]; intros Hw; [done|].
    apply IH. destruct (addc_wf f log [x] _ _ _ ltac:(done) Ha Hw) as [? _]. done.
  Qed.

  Lemma msort_count log xs log' r : msort f log xs log' r →
    len log' ≤ len log + len xs * Z.log2_up (len xs) + len xs.
  Proof.
    destruct 1 as [log|log xs log1 k cur segs log' r Hx Ha Hcur Hf]; [simpl; lia|].
    pose proof (adds_wf _ _ _ _ _ Ha wf_nil) as Hw.
    pose proof (Permutation_length (adds_perm _ _ _ _ _ _ Ha)) as Hpl.
    rewrite concat_app concat_replicate_nil /= !app_length /= Nat.add_0_r in Hpl.
    destruct (adds_count _ _ _ _ _ Ha) as [Hz Hcnt]; [done|]. simpl pot at 1 in Hcnt.
    rewrite pot_replicate // in Hcnt. pose proof (sized_replicate _ _ _ _ Hz) as [[?|Hlc] Hzs]; [done|].
    rewrite !Z.add_0_l in Hcnt, Hlc, Hzs.
    assert (Hw0 : wt (Z.of_nat k) ≤ len cur * (Z.of_nat k + 1) + len cur - 1).
    { rewrite /wt -Hlc. nia. }
    pose proof (finm_count _ _ _ _ _ Hf (Z.of_nat k + 1) (wt (Z.of_nat k)) ltac:(lia) Hzs Hw0) as Hfc.
    cbv zeta in Hfc.
    replace (len cur + len (concat segs)) with (len xs) in Hfc by lia.
    destruct segs as [|s0 segs0] using rev_ind.
    - inversion Hf; subst. simpl in *. rewrite Nat.add_0_r in Hpl. rewrite -Hpl Hlc Z.log2_up_pow2; [|lia].
      rewrite /wt in Hcnt. lia.
    - clear IHsegs0. set (segs := segs0 ++ [s0]) in *.
      assert (Hs0 : s0 ≠ []) by (eapply (Hw (replicate k [] ++ cur :: segs0)); by rewrite /segs -assoc).
      assert (Hls : len s0 = 2 ^ (Z.of_nat k + 1 + len segs0)) by (by apply sized_last).
      assert (Hup : Z.of_nat k + 1 + len segs ≤ Z.log2_up (len xs)).
      { assert (Z.of_nat k + 1 + len segs0 < Z.log2_up (len xs)); [|rewrite /segs app_length /=; lia].
        apply Z.log2_up_lt_pow2; [lia|]. rewrite -Hls.
        assert (len cur > 0) by (destruct cur; [done|simpl; lia]).
        rewrite /segs concat_app app_length /= app_nil_r in Hpl. lia. }
      assert (0 ≤ len xs) by lia. nia.
  Qed.
End count.
