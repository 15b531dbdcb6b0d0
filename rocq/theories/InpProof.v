(** * Proofs about the inplace trie: representation predicate and
    specifications of the functions. *)
From Verif Require Export InpSpec TrieHist.
Global Open Scope Z_scope.

(** ** Digits of keys *)

(** The digit that selects the child of a node of [trieI (S n)] below. *)
Definition idg (n : nat) (k : Z) : Z := Z.land (shr k (2 * Z.of_nat n - 2)) 3.
Definition agreeI (n : nat) (k k' : Z) : Prop := shr k (2 * Z.of_nat n) = shr k' (2 * Z.of_nat n).
Definition ishift (n : nat) : Z := (2 * Z.of_nat n - 2) mod 2 ^ 32.
Definition ibdig (k : Z) : Z := shr k 26.

Lemma idg_mod n k : idg n k = shr k (2 * Z.of_nat n - 2) mod 4.
Proof. rewrite /idg. change 3 with (Z.ones 2). by rewrite Z.land_ones. Qed.
Lemma idg_range n k : 0 ≤ idg n k < Z.of_nat 4.
Proof. rewrite idg_mod. by apply Z.mod_pos_bound. Qed.
Lemma agreeI_S n k k' : agreeI (S n) k k' → idg (S n) k = idg (S n) k' → agreeI n k k'.
Proof.
  rewrite /agreeI !idg_mod. replace (2 * Z.of_nat (S n) - 2) with (2 * Z.of_nat n) by lia.
  assert (Hs : ∀ x, shr x (2 * Z.of_nat (S n)) = shr x (2 * Z.of_nat n) `div` 4).
  { intros x. rewrite !shr_div; [|lia..]. rewrite Z.div_div; [|lia..]. f_equal.
    rewrite -(Z.pow_add_r 2 (2 * Z.of_nat n) 2); [|lia..]. f_equal. lia. }
  rewrite !Hs. generalize (shr k (2 * Z.of_nat n)) (shr k' (2 * Z.of_nat n)). intros. Z.to_euclidean_division_equations. lia.
Qed.
Lemma agreeI_0 k k' : agreeI 0 k k' → k = k'.
Proof. rewrite /agreeI. intros H. rewrite !shr_div in H; [|lia..]. rewrite !Z.div_1_r in H. done. Qed.
Lemma agreeI_14 k k' : ibdig k = ibdig k' → agreeI 14 k k'.
Proof.
  rewrite /agreeI /ibdig. intros H. rewrite !shr_div in H; [|lia..]. rewrite !shr_div; [|lia..].
  replace (2 ^ (2 * Z.of_nat 14)) with (2 ^ 26 * 4) by done. rewrite -(Z.div_div k (2 ^ 26) 4) // -(Z.div_div k' (2 ^ 26) 4) //. by rewrite H.
Qed.
Lemma ibdig_range k : 0 ≤ k < 2 ^ 32 → 0 ≤ ibdig k < Z.of_nat 64.
Proof. intros. rewrite /ibdig shr_div; [|lia]. split; [apply Z.div_pos; lia|]. apply Z.div_lt_upper_bound; lia. Qed.
Lemma ishift_S n : ishift (S n) = (2 * Z.of_nat n) mod 2 ^ 32.
Proof. rewrite /ishift. f_equal. lia. Qed.
Lemma ishift_next n : sub32 (ishift (S n)) INP_TREE_BIT = ishift n.
Proof.
  rewrite /sub32 /wrap32 ishift_S /ishift. change INP_TREE_BIT with 2. by rewrite Zminus_mod_idemp_l.
Qed.

(** Replacing what is at a key. *)
Definition alt (k : Z) (v : option (list elem)) (ks : kmapT) : kmapT :=
  match v with Some l => <[k := l]> ks | None => delete k ks end.
Lemma alt_lookup k v ks k' : alt k v ks !! k' = if decide (k' = k) then v else ks !! k'.
Proof.
  destruct (decide (k' = k)) as [->|Hne]; destruct v; rewrite /alt.
  - apply lookup_insert.
  - apply lookup_delete.
  - by apply lookup_insert_ne.
  - by apply lookup_delete_ne.
Qed.
Lemma sub_alt dg j ks k v : sub dg j (alt k v ks) = if decide (dg k = j) then alt k v (sub dg j ks) else sub dg j ks.
Proof.
  apply map_eq. intros k'. rewrite sub_lookup alt_lookup. destruct (decide (k' = k)) as [->|Hne].
  - destruct (decide (dg k = j)) as [Hd|Hd]; [rewrite alt_lookup; by destruct (decide (k = k))|rewrite sub_lookup; by destruct (decide (dg k = j))].
  - destruct (decide (dg k = j)) as [Hd|Hd]; [rewrite alt_lookup sub_lookup; by destruct (decide (k' = k))|by rewrite sub_lookup].
Qed.
Lemma alt_ins k x ks : ins k x ks = alt k (Some (default [] (ks !! k) ++ [x])) ks.
Proof. done. Qed.
Lemma alt_some k l ks : alt k (Some l) ks = <[k := l]> ks.
Proof. done. Qed.
Global Arguments alt : simpl never.
Lemma upd_nil k ks : upd k [] ks = alt k None ks.
Proof. done. Qed.
Lemma upd_cons k l ks : l ≠ [] → upd k l ks = alt k (Some l) ks.
Proof. intros. rewrite /upd decide_False //. Qed.
Lemma alt_upd k l ks : upd k l ks = alt k (if decide (l = []) then None else Some l) ks.
Proof. apply map_eq. intros k'. by rewrite alt_lookup upd_lookup. Qed.
Lemma alt_insert k v ks k' l : k ≠ k' → alt k v (<[k' := l]> ks) = <[k' := l]> (alt k v ks).
Proof.
  intros Hne. apply map_eq. intros k1. rewrite alt_lookup. destruct (decide (k1 = k')) as [->|Hn].
  - rewrite !lookup_insert decide_False //.
  - rewrite !lookup_insert_ne // alt_lookup //.
Qed.
Lemma alt_same_insert k v ks l : alt k (Some v) (<[k := l]> ks) = <[k := v]> ks.
Proof.
  apply map_eq. intros k1. rewrite alt_lookup. destruct (decide (k1 = k)) as [->|Hn].
  - by rewrite lookup_insert.
  - by rewrite !lookup_insert_ne.
Qed.
Lemma alt_none k ks : ks !! k = None → alt k None ks = ks.
Proof. intros H. apply map_eq. intros k1. rewrite alt_lookup. by destruct (decide (k1 = k)) as [->|?]. Qed.

(** ** Representation *)
Local Arguments wcells : simpl never.
Local Arguments seq : simpl never.
Section inp.
  Context `{!memG}.

  Definition nodeI (x : elem) (nx pv : Z) : iProp :=
    ⌜0 < e_p x⌝ ∗ f_next (e_p x) ↦ W nx ∗ f_prev (e_p x) ↦ W pv ∗
    f_data (e_p x) ↦ W (e_d x) ∗ f_key (e_p x) ↦ e_i x.
  Fixpoint iseg (xs : list elem) (pv nx : Z) : iProp :=
    match xs with
    | [] => emp
    | x :: xs => nodeI x (hd_p xs nx) pv ∗ iseg xs (e_p x) nx
    end.
  (** The map of a node that is not the head of its list. *)
  Definition freemap (p : Z) : iProp := [∗ list] a ∈ wcells (p + 24) 4, anyword a.
  (** A node with its data and key, that is being inserted. *)
  Definition freshI (x : elem) : iProp :=
    ⌜0 < e_p x⌝ ∗ (∃ c, ⌜wordcell c⌝ ∗ f_next (e_p x) ↦ c) ∗ (∃ c, ⌜wordcell c⌝ ∗ f_prev (e_p x) ↦ c) ∗
    f_data (e_p x) ↦ W (e_d x) ∗ f_key (e_p x) ↦ e_i x.

  Lemma iseg_app xs ys pv nx :
    iseg (xs ++ ys) pv nx ⊣⊢ iseg xs pv (hd_p ys nx) ∗ iseg ys (last_p pv xs) nx.
  Proof.
    revert pv. induction xs as [|x xs IH]; intros pv; simpl.
    - by rewrite left_id.
    - rewrite IH hd_p_app. by rewrite assoc.
  Qed.
  Lemma iseg_cons x xs pv nx :
    iseg (x :: xs) pv nx ⊣⊢ nodeI x (hd_p xs nx) pv ∗ iseg xs (e_p x) nx.
  Proof. done. Qed.
  Lemma iseg_snoc x xs pv nx :
    iseg (xs ++ [x]) pv nx ⊣⊢ iseg xs pv (e_p x) ∗ nodeI x nx (last_p pv xs).
  Proof. by rewrite iseg_app /= right_id. Qed.
  Lemma iseg_pos xs pv nx : iseg xs pv nx -∗ ⌜Forall (λ x, 0 < e_p x) xs⌝.
  Proof.
    revert pv. induction xs as [|x xs IH]; intros pv; simpl.
    - iIntros "_". done.
    - iIntros "[(%Hx & _) Hxs]".
      iDestruct (IH with "Hxs") as %?. iPureIntro. by constructor.
  Qed.
  Lemma iseg_ends xs pv nx :
    xs ≠ [] →
    iseg xs pv nx ⊢
      ⌜0 < hd_p xs 0⌝ ∗
      f_prev (hd_p xs 0) ↦ W pv ∗ f_next (last_p 0 xs) ↦ W nx ∗
      (∀ pv' nx', f_prev (hd_p xs 0) ↦ W pv' -∗ f_next (last_p 0 xs) ↦ W nx' -∗ iseg xs pv' nx').
  Proof.
    destruct xs as [|x xs]; [done|intros _].
    destruct xs as [|y ys _] using rev_ind; simpl.
    - iIntros "[(#Hp&H1&$&H3&H4) _]". iFrame "H1 Hp". iIntros (pv' nx') "? ?". by iFrame "# ∗".
    - rewrite last_p_app /=. iIntros "[(#Hp&H1&$&H3&H4) H]". iFrame "Hp".
      rewrite iseg_snoc. iDestruct "H" as "[Hys (#Hp'&$&H)]".
      iIntros (pv' nx') "? ?". rewrite iseg_snoc. rewrite !hd_p_app /=. by iFrame "# ∗".
  Qed.

  Lemma wp_inp_first x Φ : freshI x -∗ (nodeI x 0 (e_p x) -∗ Φ (e_p x)) -∗ wp (inp_list_insert_first (e_p x)) Φ.
  Proof.
    iIntros "(%Hp & (%c1 & %H1 & Hn) & (%c2 & %H2 & Hv) & Hd & Hi) HΦ". rewrite /inp_list_insert_first.
    wp_store. wp_store. wp_ret. iApply "HΦ". rewrite /nodeI. by iFrame.
  Qed.
  Lemma wp_inp_tail l x Φ : l ≠ [] → freshI x -∗ iseg l (last_p 0 l) 0 -∗
    (iseg (l ++ [x]) (e_p x) 0 -∗ Φ tt) -∗ wp (inp_list_insert_tail_not_empty (hd_p l 0) (e_p x)) Φ.
  Proof.
    iIntros (Hne) "(%Hp & (%c1 & %H1 & Hn) & (%c2 & %H2 & Hv) & Hd & Hi) Hl HΦ". rewrite /inp_list_insert_tail_not_empty.
    iDestruct (iseg_ends with "Hl") as "(%Hhp&Hhp&Htn&Hl)"; first done.
    wp_load. wp_store. wp_store. wp_store. wp_load. wp_store. iApply "HΦ".
    rewrite iseg_snoc. iSplitR "Hn Hv Hd Hi".
    - iApply ("Hl" with "Hhp Htn").
    - rewrite (last_p_indep _ 0) //. rewrite /nodeI. iFrame. done.
  Qed.
  Lemma wp_inp_list_remove lp x xs ys Φ :
    lp ↦ W (hd_p (xs ++ x :: ys) 0) -∗ iseg (xs ++ x :: ys) (last_p 0 (xs ++ x :: ys)) 0 -∗
    (∀ nx pv, lp ↦ W (hd_p (xs ++ ys) 0) -∗ iseg (xs ++ ys) (last_p 0 (xs ++ ys)) 0 -∗ nodeI x nx pv -∗ Φ tt) -∗
    wp (inp_list_remove lp (e_p x)) Φ.
  Proof.
    iIntros "Hl H HΦ". rewrite iseg_app iseg_cons hd_p_app last_p_app /=.
    iDestruct "H" as "(Hxs & (%Hp&Hn&Hv&Hd&Hi) & Hys)".
    rewrite /inp_list_remove. wp_load. wp_load.
    destruct (decide (xs = [])) as [->|Hxne]; destruct (decide (ys = [])) as [->|Hyne]; cbn [hd_p last_p app].
    - wp_if. wp_load. wp_store.
      wp_if. wp_load. wp_store.
      iApply ("HΦ" with "Hl"); rewrite /nodeI /=; by iFrame.
    - iDestruct (iseg_ends with "Hys") as "(%Hhp&Hhp&Htn&Hys)"; first done.
      wp_if. wp_load. wp_store.
      wp_if. wp_load. wp_store.
      iApply ("HΦ" with "Hl [Hhp Htn Hys]"); rewrite /nodeI /=; [|by iFrame].
      rewrite (last_p_indep _ 0) //. iApply ("Hys" with "Hhp Htn").
    - iDestruct (iseg_ends with "Hxs") as "(%Hhp&Hhp&Htn&Hxs)"; first done.
      rewrite hd_last_indep // (last_p_indep _ 0) //.
      iAssert ⌜hd_p xs 0 ≠ e_p x⌝%I as %Hneq.
      { iIntros (Heq). rewrite Heq. iApply (mapsto_excl with "Hhp Hv"). }
      wp_if. wp_load. wp_store.
      wp_if. wp_load. wp_load. wp_store.
      rewrite app_nil_r. iApply ("HΦ" with "Hl [Hhp Htn Hxs]"); rewrite /nodeI /=; [|by iFrame].
      iApply ("Hxs" with "Hhp Htn").
    - iDestruct (iseg_ends with "Hxs") as "(%Hhp&Hhp&Htn&Hxs)"; first done.
      iDestruct (iseg_ends with "Hys") as "(%Hhp'&Hhp'&Htn'&Hys)"; first done.
      rewrite !(hd_last_indep xs) // !(last_p_indep _ 0) //.
      iAssert ⌜hd_p xs 0 ≠ e_p x⌝%I as %Hneq.
      { iIntros (Heq). rewrite Heq. iApply (mapsto_excl with "Hhp Hv"). }
      wp_if. wp_load. wp_store.
      wp_if. wp_load. wp_load. wp_store.
      rewrite hd_p_app last_p_app !(hd_last_indep xs) // !(last_p_indep _ 0 ys) //.
      iApply ("HΦ" with "Hl [Hhp Htn Hxs Hhp' Htn' Hys]"); rewrite /nodeI /=; [|by iFrame].
      rewrite iseg_app. iSplitL "Hhp Htn Hxs".
      + iApply ("Hxs" with "Hhp Htn").
      + rewrite (last_p_indep _ 0 xs) //. iApply ("Hys" with "Hhp' Htn'").
  Qed.
  Lemma wp_inp_walk fuel xs pv Φ :
    (length xs <= fuel)%nat →
    iseg xs pv 0 -∗ (iseg xs pv 0 -∗ Φ ((λ x, (e_p x, e_d x)) <$> xs)) -∗
    wp (list_walk fuel (hd_p xs 0)) Φ.
  Proof.
    iIntros (Hf) "Hxs HΦ". iInduction fuel as [|fuel] "IH" forall (xs pv Φ Hf).
    - destruct xs; simpl in *; [|lia]. wp_ret. by iApply "HΦ".
    - destruct xs as [|x xs]; simpl in *.
      + wp_ret. by iApply "HΦ".
      + iDestruct "Hxs" as "[(%Hp&Hn&Hv&Hd&Hi) Hxs]".
        wp_if. wp_load. wp_load. wp_bind.
        iApply ("IH" with "[] Hxs"); first (iPureIntro; lia).
        iIntros "Hxs". wp_ret. iApply "HΦ". by iFrame.
  Qed.

  (** The list of the key [k], whose head is [h]; without the map of the head. *)
  Definition leafI (h k : Z) (l : list elem) : iProp :=
    ⌜l ≠ [] ∧ Forall (λ x, e_i x = W k) l ∧ h = hd_p l 0⌝ ∗ iseg l (last_p 0 l) 0 ∗ [∗ list] x ∈ tail l, freemap (e_p x).

  (** Children: word [j] at [b] is the subtrie of the keys of digit [j]. *)
  Definition mapw (b : Z) (hf : nat → Z) (N : nat) : iProp := [∗ list] j ∈ seq 0 N, (b + 8 * Z.of_nat j) ↦ W (hf j).
  Definition subs (dg : Z → Z) (T : Z → kmapT → iProp) (hf : nat → Z) (ks : kmapT) (N : nat) : iProp :=
    [∗ list] j ∈ seq 0 N, T (hf j) (sub dg (Z.of_nat j) ks).
  Definition kidsI (N : nat) (dg : Z → Z) (T : Z → kmapT → iProp) (b : Z) (ks : kmapT) : iProp :=
    ∃ hf, mapw b hf N ∗ subs dg T hf ks N.

  Fixpoint trieI (n : nat) (h : Z) (ks : kmapT) : iProp :=
    ⌜h = 0 ∧ ks = ∅⌝ ∨
    match n with
    | O => False
    | S n => ∃ k l ks', ⌜ks = <[k := l]> ks' ∧ ks' !! k = None⌝ ∗ leafI h k l ∗ kidsI 4 (idg n) (trieI n) (h + 24) ks'
    end.
  Definition slot (n : nat) (lp : Z) (ks : kmapT) : iProp := ∃ h, lp ↦ W h ∗ trieI n h ks.

  Lemma trieI_null n : ⊢ trieI n 0 ∅.
  Proof. destruct n; by iLeft. Qed.
  Lemma trieI_node n h k l ks : ks !! k = None → leafI h k l -∗ kidsI 4 (idg n) (trieI n) (h + 24) ks -∗ trieI (S n) h (<[k := l]> ks).
  Proof. iIntros (Hk) "Hl Hk". iRight. iExists k, l, ks. by iFrame. Qed.
  Lemma trieI_cases n h ks : trieI n h ks ⊣⊢ ⌜h = 0 ∧ ks = ∅⌝ ∨
    ∃ n' k l ks', ⌜n = S n' ∧ ks = <[k := l]> ks' ∧ ks' !! k = None⌝ ∗ leafI h k l ∗ kidsI 4 (idg n') (trieI n') (h + 24) ks'.
  Proof.
    destruct n as [|n]; simpl.
    - iSplit; iIntros "[H|H]"; [by iLeft|done|by iLeft|]. iDestruct "H" as (n' k l ks' ([=] & _)) "_".
    - iSplit; iIntros "[H|H]"; [by iLeft| |by iLeft|]; iRight.
      + iDestruct "H" as (k l ks' [-> Hk]) "H". iExists n, k, l, ks'. by iFrame.
      + iDestruct "H" as (n' k l ks' ([= <-] & -> & Hk)) "H". iExists k, l, ks'. by iFrame.
  Qed.
  Lemma leafI_head h k l : leafI h k l -∗ ⌜0 < h⌝.
  Proof.
    iIntros "[(%Hne & _ & ->) [Hl _]]". iDestruct (iseg_pos with "Hl") as %Hp. iPureIntro. destruct l; [done|]. by inversion Hp.
  Qed.
  Lemma leafI_key h k l : leafI h k l -∗ f_key h ↦ W k ∗ (f_key h ↦ W k -∗ leafI h k l).
  Proof.
    iIntros "[(%Hne & %HF & ->) [Hl Hm]]". destruct l as [|x l]; [done|]. inversion HF as [|? ? Hi HF']; subst. rewrite /leafI iseg_cons /nodeI Hi.
    iDestruct "Hl" as "[(Hp & Hn & Hv & Hd & Hk) Hl]". iFrame "Hk". iIntros "Hk". iSplit; [done|]. iFrame.
  Qed.
  Lemma trieI_zero n ks : trieI n 0 ks -∗ ⌜ks = ∅⌝.
  Proof.
    rewrite trieI_cases. iIntros "[[_ %Hz]|H]"; [done|]. iDestruct "H" as (n' k l ks' _) "[Hl _]". iDestruct (leafI_head with "Hl") as %?. lia.
  Qed.

  Lemma mapw_acc N dg T b hf ks d : (d < N)%nat →
    mapw b hf N -∗ subs dg T hf ks N -∗ (b + 8 * Z.of_nat d) ↦ W (hf d) ∗ T (hf d) (sub dg (Z.of_nat d) ks) ∗
      (∀ h' ks', ⌜∀ k, dg k ≠ Z.of_nat d → ks' !! k = ks !! k⌝ -∗ (b + 8 * Z.of_nat d) ↦ W h' -∗
        T h' (sub dg (Z.of_nat d) ks') -∗ kidsI N dg T b ks').
  Proof.
    iIntros (Hd) "Hw H". rewrite {1}/mapw {1}/subs.
    iDestruct (big_sepL_lookup_acc_impl d d with "H") as "[$ H]"; [by apply lookup_seq|].
    iDestruct (big_sepL_lookup_acc_impl d d with "Hw") as "[$ Hw]"; [by apply lookup_seq|].
    iIntros (h' ks' Hks) "Hk HT".
    iExists (λ j, if decide (j = d) then h' else hf j). rewrite /mapw /subs. iSplitL "Hk Hw".
    - iApply ("Hw" $! (λ _ j, (b + 8 * Z.of_nat j) ↦ W (if decide (j = d) then h' else hf j))%I).
      + iIntros "!>" (j j' [-> _]%lookup_seq Hj) "Hk". rewrite decide_False //.
      + rewrite decide_True //.
    - iApply ("H" $! (λ _ j, T (if decide (j = d) then h' else hf j) (sub dg (Z.of_nat j) ks'))%I).
      + iIntros "!>" (j j' [-> _]%lookup_seq Hj) "HT". rewrite decide_False //.
        rewrite (sub_ext _ _ ks' ks); [iFrame|]. intros k Hk. apply Hks. simpl in Hk. lia.
      + rewrite decide_True //.
  Qed.
  Lemma kidsI_acc N dg T b ks z : 0 ≤ z < Z.of_nat N →
    kidsI N dg T b ks -∗ ∃ h, (b + 8 * z) ↦ W h ∗ T h (sub dg z ks) ∗
      (∀ h' ks', ⌜∀ k, dg k ≠ z → ks' !! k = ks !! k⌝ -∗ (b + 8 * z) ↦ W h' -∗
        T h' (sub dg z ks') -∗ kidsI N dg T b ks').
  Proof.
    iIntros (Hz) "(%hf & Hw & H)". remember (Z.to_nat z) as d eqn:Hd. assert (z = Z.of_nat d) as -> by lia. clear Hd.
    iExists (hf d). iApply (mapw_acc with "Hw H"). lia.
  Qed.
  Lemma kidsI_empty N dg T b : (⊢ T 0 ∅) → ([∗ list] k ∈ wcells b N, k ↦ W 0) -∗ kidsI N dg T b ∅.
  Proof.
    iIntros (HT) "H". iExists (λ _, 0). iSplitL.
    - rewrite /mapw /wcells big_sepL_fmap. iFrame.
    - rewrite /subs. iApply big_sepL_intro. iIntros "!>" (j j' _). rewrite sub_none; [|by intros k [? ?%lookup_empty_Some]]. iApply HT.
  Qed.
  Lemma mapw_free b hf : mapw (b + 24) hf 4 -∗ freemap b.
  Proof.
    iIntros "H". rewrite /mapw /freemap /wcells big_sepL_fmap. iApply (big_sepL_impl with "H"). iIntros "!>" (? ? _) "H". iExists _. iFrame. iPureIntro. right; eauto.
  Qed.
  Lemma kidsI_all_zero n dg ks hf : (∀ k, 0 ≤ dg k < Z.of_nat 4) → (∀ j, (j < 4)%nat → hf j = 0) →
    subs dg (trieI n) hf ks 4 -∗ ⌜ks = ∅⌝.
  Proof.
    iIntros (Hdg Hz) "H". iAssert ⌜∀ k, ks !! k = None⌝%I as %Hn; [|iPureIntro; by apply map_empty].
    iIntros (k). specialize (Hdg k). rewrite /subs.
    iDestruct (big_sepL_lookup _ _ (Z.to_nat (dg k)) with "H") as "H"; [apply lookup_seq; split; [done|lia]|].
    rewrite /= Hz; [|lia]. iDestruct (trieI_zero with "H") as %He. iPureIntro.
    assert (Hl : sub dg (Z.of_nat (Z.to_nat (dg k))) ks !! k = None) by (by rewrite He lookup_empty).
    rewrite sub_lookup decide_True // in Hl. lia.
  Qed.

  (** ** Search of a key *)
  Lemma wp_inp_digit k n Φ : (n ≤ 31)%nat → Φ (idg (S n) k) -∗ wp (inp_digit k (ishift (S n))) Φ.
  Proof.
    iIntros (Hn) "H". rewrite /inp_digit /shr_key. wp_bind. rewrite ishift_S Z.mod_small; [|lia]. rewrite decide_True; [|lia]. wp_ret. wp_ret.
    rewrite /idg. replace (2 * Z.of_nat (S n) - 2) with (2 * Z.of_nat n) by lia. done.
  Qed.

  Lemma wp_inp_find n fuel lp key ks Φ : (n ≤ fuel)%nat → (n ≤ 14)%nat → (∀ k, is_Some (ks !! k) → agreeI n k key) →
    slot (S n) lp ks -∗
    (∀ m lp' h' ks', (∀ v, slot (S m) lp' (alt key v ks') -∗ slot (S n) lp (alt key v ks)) -∗ lp' ↦ W h' -∗
      ⌜ks' !! key = None ∧ (m ≤ n)%nat⌝ -∗
      (⌜h' = 0 ∧ ks !! key = None ∧ ks' = ∅⌝ ∨ ∃ l, ⌜ks !! key = Some l⌝ ∗ leafI h' key l ∗ kidsI 4 (idg m) (trieI m) (h' + 24) ks') -∗
      Φ (lp', h')) -∗
    wp (inp_find fuel (ishift n) lp key) Φ.
  Proof.
    iIntros (Hf Hn Hag) "Hs HΦ". iInduction n as [|n] "IH" forall (fuel lp ks Φ Hf Hn Hag).
    all: iDestruct "Hs" as (h) "[Hlp HT]"; rewrite trieI_cases; iDestruct "HT" as "[[-> ->]|(%n' & %k & %l & %ks' & (%Hn' & -> & %Hk) & Hl & Hks)]".
    1,3: destruct fuel; cbn [inp_find]; wp_load; (iApply wp_if_true; [done|]); wp_ret;
      (iApply ("HΦ" $! _ lp 0 ∅ with "[] Hlp [%]"); [by iIntros (v) "H"|split; [apply lookup_empty|done]|by iLeft]).
    - injection Hn' as <-. iDestruct (leafI_head with "Hl") as %Hh. iDestruct (leafI_key with "Hl") as "[Hkey Hl]".
      assert (k = key) as ->. { apply agreeI_0, Hag. rewrite lookup_insert. by eexists. }
      destruct fuel; cbn [inp_find]; wp_load; (iApply wp_if_false; [rewrite /null; lia|]); wp_load;
        (iApply wp_if_false; [tauto|]); wp_ret; iSpecialize ("Hl" with "Hkey").
      all: iApply ("HΦ" with "[] Hlp [//]"); [|iRight; iExists l; rewrite lookup_insert; by iFrame].
      all: iIntros (v) "H"; rewrite (_ : alt key v (<[key:=l]> ks') = alt key v ks'); [done|].
      all: apply map_eq; intros k'; rewrite !alt_lookup; destruct (decide (k' = key)); [done|by rewrite lookup_insert_ne].
    - injection Hn' as <-. iDestruct (leafI_head with "Hl") as %Hh. iDestruct (leafI_key with "Hl") as "[Hkey Hl]".
      destruct fuel as [|fuel]; [lia|]. cbn [inp_find]. wp_load. iApply wp_if_false; [rewrite /null; lia|]. wp_load.
      iSpecialize ("Hl" with "Hkey"). destruct (decide (k = key)) as [->|Hne].
      + iApply wp_if_false; [tauto|]. wp_ret.
        iApply ("HΦ" with "[] Hlp [//]"); [|iRight; iExists l; rewrite lookup_insert; by iFrame].
        iIntros (v) "H". rewrite (_ : alt key v (<[key:=l]> ks') = alt key v ks'); [done|].
        apply map_eq; intros k'; rewrite !alt_lookup; destruct (decide (k' = key)); [done|by rewrite lookup_insert_ne].
      + iApply wp_if_true; [done|]. wp_bind. iApply wp_inp_digit; [lia|]. rewrite ishift_next.
        iDestruct (kidsI_acc _ _ _ _ _ (idg (S n) key) with "Hks") as (h1) "(Hw & HT & Hks)"; [apply idg_range|].
        iApply ("IH" $! fuel _ (sub (idg (S n)) (idg (S n) key) ks') with "[%] [%] [%] [Hw HT]"); [lia|lia| | |].
        { intros k'. rewrite sub_lookup. destruct (decide _) as [Hd|Hd]; [|by intros []]. intros Hs.
          apply agreeI_S; [|done]. apply Hag. rewrite lookup_insert_ne //. intros ->. rewrite Hk in Hs. by destruct Hs. }
        { iExists h1. iFrame. }
        iIntros (m lp' h' ks'') "Hcl Hlp' [%Hks'' %Hm] Hres".
        iApply ("HΦ" $! m lp' h' ks'' with "[Hcl Hlp Hl Hks] Hlp' [%]"); [|split; [done|lia]|].
        * iIntros (v) "Hs". iDestruct ("Hcl" with "Hs") as (h2) "[Hw HT]". iExists h. iFrame "Hlp". rewrite alt_insert //.
          iApply (trieI_node with "Hl"); [by rewrite alt_lookup decide_False|].
          iApply ("Hks" $! h2 with "[%] Hw [HT]").
          -- intros k' Hk'. rewrite alt_lookup decide_False //. congruence.
          -- rewrite sub_alt decide_True //.
        * rewrite sub_lookup. rewrite decide_True // lookup_insert_ne //.
  Qed.

  (** tommy_trie_inplace_bucket *)
  Lemma wp_inp_bucket_loop n fuel h key ks Φ : (n ≤ fuel)%nat → (n ≤ 14)%nat → (∀ k, is_Some (ks !! k) → agreeI n k key) →
    trieI (S n) h ks -∗
    (∀ l, ⌜l = default [] (ks !! key)⌝ -∗ iseg l (last_p 0 l) 0 -∗ (iseg l (last_p 0 l) 0 -∗ trieI (S n) h ks) -∗ Φ (hd_p l 0)) -∗
    wp (inp_bucket_loop fuel (ishift n) h key) Φ.
  Proof.
    iIntros (Hf Hn Hag) "HT HΦ". iInduction n as [|n] "IH" forall (fuel h ks Φ Hf Hn Hag).
    all: iDestruct (trieI_cases with "HT") as "[[-> ->]|(%n' & %k & %l & %ks' & (%Hn' & -> & %Hk) & Hl & Hks)]".
    1,3: destruct fuel; cbn [inp_bucket_loop]; (iApply wp_if_true; [done|]); wp_ret;
      iApply ("HΦ" $! [] with "[//] [//]"); iIntros "_"; iApply trieI_cases; by iLeft.
    all: injection Hn' as <-; iDestruct (leafI_head with "Hl") as %Hh; iDestruct (leafI_key with "Hl") as "[Hkey Hl]".
    - assert (k = key) as ->. { apply agreeI_0, Hag. rewrite lookup_insert. by eexists. }
      destruct fuel; cbn [inp_bucket_loop]; (iApply wp_if_false; [rewrite /null; lia|]); wp_load;
        (iApply wp_if_false; [tauto|]); wp_ret; iSpecialize ("Hl" with "Hkey").
      all: iDestruct "Hl" as "[(%Hne & %HF & ->) [Hl Hm]]"; iApply ("HΦ" with "[%] Hl"); [by rewrite lookup_insert|].
      all: iIntros "Hl"; iApply (trieI_node with "[Hl Hm]"); [done| |done]; by iFrame.
    - destruct fuel as [|fuel]; [lia|]. cbn [inp_bucket_loop]. iApply wp_if_false; [rewrite /null; lia|]. wp_load.
      iSpecialize ("Hl" with "Hkey"). destruct (decide (k = key)) as [->|Hne].
      + iApply wp_if_false; [tauto|]. wp_ret.
        iDestruct "Hl" as "[(%Hne & %HF & ->) [Hl Hm]]"; iApply ("HΦ" with "[%] Hl"); [by rewrite lookup_insert|].
        iIntros "Hl"; iApply (trieI_node with "[Hl Hm]"); [done| |done]; by iFrame.
      + iApply wp_if_true; [done|]. wp_bind. iApply wp_inp_digit; [lia|]. rewrite ishift_next.
        iDestruct (kidsI_acc _ _ _ _ _ (idg (S n) key) with "Hks") as (h1) "(Hw & HT & Hks)"; [apply idg_range|].
        wp_load.
        iApply ("IH" $! fuel _ (sub (idg (S n)) (idg (S n) key) ks') with "[%] [%] [%] HT"); [lia|lia| |].
        { intros k'. rewrite sub_lookup. destruct (decide _) as [Hd|Hd]; [|by intros []]. intros Hs.
          apply agreeI_S; [|done]. apply Hag. rewrite lookup_insert_ne //. intros ->. rewrite Hk in Hs. by destruct Hs. }
        iIntros (l' Hl') "Hl' Hcl". iApply ("HΦ" with "[%] Hl'").
        { rewrite Hl' sub_lookup. rewrite decide_True // lookup_insert_ne //. }
        iIntros "Hl'". iApply (trieI_node with "Hl"); [done|]. iApply ("Hks" with "[//] Hw"). by iApply "Hcl".
  Qed.

  (** ** Insertion *)
  Lemma wp_inp_bucket_insert fuel lp key x ks Φ : (14 ≤ fuel)%nat → (∀ k, is_Some (ks !! k) → ibdig k = ibdig key) → e_i x = W key →
    slot 15 lp ks -∗ freshI x -∗ ([∗ list] k ∈ wcells (e_p x + 24) 4, k ↦ W 0) -∗
    (slot 15 lp (ins key x ks) -∗ Φ tt) -∗
    wp (inp_bucket_insert fuel INP_BUCKET_SHIFT lp (e_p x) key) Φ.
  Proof.
    iIntros (Hf Hag Hx) "Hs Hx Hm HΦ". rewrite /inp_bucket_insert. wp_bind. change INP_BUCKET_SHIFT with (ishift 14).
    iApply (wp_inp_find with "Hs"); [lia|lia|by intros; apply agreeI_14, Hag|].
    iIntros (m lp' h' ks') "Hcl Hlp [%Hk' %Hm] Hres". iAssert ⌜0 < e_p x⌝%I as %Hxp; [by iDestruct "Hx" as "[$ _]"|].
    iDestruct "Hres" as "[(-> & %Hk & ->)|(%l & %Hk & Hl & Hks)]".
    - iApply wp_if_true; [done|]. wp_bind. iApply (wp_inp_first with "Hx"). iIntros "Hx". wp_store. iApply "HΦ".
      rewrite alt_ins Hk. cbn [default from_option id app]. iApply "Hcl". iExists (e_p x). iFrame "Hlp". rewrite alt_some.
      iApply (trieI_node with "[Hx]"); [apply lookup_empty| |].
      + rewrite /leafI /=. iSplit; [|by iFrame]. iPureIntro. split; [done|]. split; [|done]. by constructor; [|constructor].
      + iApply (kidsI_empty with "Hm"). apply trieI_null.
    - iDestruct (leafI_head with "Hl") as %Hh. iApply wp_if_false; [rewrite /null; lia|].
      iAssert (freemap (e_p x)) with "[Hm]" as "Hm".
      { iApply (big_sepL_impl with "Hm"). iIntros "!>" (? ? _) "H". iExists _. iFrame. iPureIntro. right; eauto. }
      iDestruct "Hl" as "[(%Hne & %HF & ->) [Hl Hms]]". iApply (wp_inp_tail with "Hx Hl"); [done|]. iIntros "Hl". iApply "HΦ".
      rewrite alt_ins Hk. cbn [default from_option id app]. iApply "Hcl". iExists (hd_p l 0). iFrame "Hlp". rewrite alt_some.
      iApply (trieI_node with "[Hl Hm Hms] Hks"); [done|]. rewrite /leafI last_p_snoc. iFrame "Hl". iSplit.
      + iPureIntro. split; [by destruct l|]. split; [|by destruct l]. apply Forall_app. split; [done|]. by constructor; [|constructor].
      + destruct l as [|y l]; [done|]. cbn [app tail]. rewrite big_sepL_app big_sepL_singleton. iFrame "Hms".
        iExact "Hm".
  Qed.

  (** ** Removal *)
  Lemma wp_inp_copy n i to from hf Φ : 
    ([∗ list] j ∈ seq i n, (from + 24 + 8 * Z.of_nat j) ↦ W (hf j)) -∗ ([∗ list] j ∈ seq i n, anyword (to + 24 + 8 * Z.of_nat j)) -∗
    (([∗ list] j ∈ seq i n, (from + 24 + 8 * Z.of_nat j) ↦ W (hf j)) -∗ ([∗ list] j ∈ seq i n, (to + 24 + 8 * Z.of_nat j) ↦ W (hf j)) -∗ Φ tt) -∗
    wp (inp_copy_loop n to from (Z.of_nat i)) Φ.
  Proof.
    iIntros "Hf Ht HΦ". iInduction n as [|n] "IH" forall (i); cbn [inp_copy_loop seq].
    - wp_ret. by iApply ("HΦ" with "[]").
    - rewrite !big_sepL_cons. iDestruct "Hf" as "[Hf Hfs]". iDestruct "Ht" as "[(%c & %Hc & Ht) Hts]". rewrite /f_map. wp_load. wp_store.
      replace (Z.of_nat i + 1) with (Z.of_nat (S i)) by lia. iApply ("IH" with "Hfs Hts"). iIntros "Hfs Hts".
      iApply ("HΦ" with "[$Hf $Hfs] [$Ht $Hts]").
  Qed.
  Lemma wp_inp_copy4 to from hf Φ : mapw (from + 24) hf 4 -∗ freemap to -∗
    (freemap from -∗ mapw (to + 24) hf 4 -∗ Φ tt) -∗ wp (inp_copy_loop (Z.to_nat INP_TREE_MAX) to from 0) Φ.
  Proof.
    iIntros "Hf Ht HΦ". change 0 with (Z.of_nat 0). iApply (wp_inp_copy with "Hf [Ht]").
    - rewrite /freemap /wcells big_sepL_fmap. iFrame.
    - iIntros "Hf Ht". iApply ("HΦ" with "[Hf] Ht"). by iApply mapw_free.
  Qed.

  Lemma wp_inp_scan n N h hf Φ : (n ≤ N)%nat → mapw (h + 24) hf N -∗
    (∀ r, ⌜match r with None => ∀ j, (j < n)%nat → hf j = 0 | Some i => ∃ j, (j < n)%nat ∧ i = Z.of_nat j ∧ hf j ≠ 0 end⌝ -∗ mapw (h + 24) hf N -∗ Φ r) -∗
    wp (inp_scan n h) Φ.
  Proof.
    iIntros (Hn) "Hw HΦ". iInduction n as [|n] "IH"; cbn [inp_scan].
    - wp_ret. iApply ("HΦ" with "[%] Hw"). lia.
    - rewrite /mapw. iDestruct (big_sepL_lookup_acc _ _ n n with "Hw") as "[Hn Hw]"; [apply lookup_seq; lia|].
      rewrite /f_map. wp_load. iSpecialize ("Hw" with "Hn"). destruct (decide (hf n = 0)) as [Hz|Hz].
      + iApply wp_if_true; [done|]. iApply ("IH" with "[%] Hw"); [lia|]. iIntros (r Hr) "Hw". iApply ("HΦ" with "[%] Hw"). destruct r as [i|].
        * destruct Hr as (j & ? & ? & ?). exists j. split; [lia|done].
        * intros j Hj. destruct (decide (j = n)) as [->|?]; [done|]. apply Hr. lia.
      + iApply wp_if_false; [done|]. wp_ret. iApply ("HΦ" with "[%] Hw"). exists n. split; [lia|done].
  Qed.

  Lemma wp_inp_leaf n fuel lp h ks Φ : (n ≤ fuel)%nat → 0 < h →
    kidsI 4 (idg n) (trieI n) (h + 24) ks -∗
    ((⌜ks = ∅⌝ -∗ freemap h -∗ Φ (lp, h)) ∧
     (∀ lp' h' k2 l2, ⌜ks !! k2 = Some l2 ∧ 0 < lp'⌝ -∗ lp' ↦ W h' -∗ leafI h' k2 l2 -∗ freemap h' -∗
        (lp' ↦ W 0 -∗ kidsI 4 (idg n) (trieI n) (h + 24) (delete k2 ks)) -∗ Φ (lp', h'))) -∗
    wp (inp_leaf fuel lp h) Φ.
  Proof.
    iIntros (Hf Hh) "Hk HΦ". iInduction n as [|n] "IH" forall (fuel lp h ks Φ Hf Hh).
    all: rewrite [inp_leaf]lock; iDestruct "Hk" as (hf) "[Hw HT]".
    all: rewrite -lock; (rewrite (_ : inp_leaf fuel lp h = (r ← inp_scan (Z.to_nat INP_TREE_MAX) h;
      match r with None => mret (lp, h) | Some i => leaf' ← load (f_map h i);
        match fuel with O => fuel_out | S fuel => inp_leaf fuel (f_map h i) leaf' end end)); [|by destruct fuel]).
    all: wp_bind; iApply (wp_inp_scan 4 4 with "Hw"); [done|]; iIntros ([i|] Hr) "Hw".
    - destruct Hr as (j & Hj & -> & Hz). rewrite /subs. iDestruct (big_sepL_lookup _ _ j with "HT") as "H"; [apply lookup_seq; split; [done|lia]|].
      iDestruct "H" as "[[%Hz1 _]|[]]". done.
    - wp_ret. iDestruct (kidsI_all_zero with "HT") as %->; [apply idg_range|done|].
      iDestruct "HΦ" as "[HΦ _]". iApply ("HΦ" with "[//]"). by iApply mapw_free.
    - destruct Hr as (j & Hj & -> & Hz).
      iDestruct (mapw_acc _ _ _ _ _ _ j with "Hw HT") as "(Hw & HT & Hks)"; [lia|]. rewrite /f_map. wp_load.
      destruct fuel as [|fuel]; [lia|]. rewrite trieI_cases.
      iDestruct "HT" as "[[%H0 _]|(%n' & %k & %l & %ks' & (%Hn' & %Hsub & %Hk) & Hl & Hk)]"; [done|]. injection Hn' as <-.
      iDestruct (leafI_head with "Hl") as %Hh1.
      assert (Hin : ∀ k1 l1, <[k := l]> ks' !! k1 = Some l1 → idg (S n) k1 = Z.of_nat j ∧ ks !! k1 = Some l1).
      { intros k1 l1. rewrite -Hsub sub_lookup. destruct (decide _); [done|by intros]. }
      iApply ("IH" with "[%] [%] Hk"); [lia|done|]. iSplit.
      + iIntros (->) "Hm". iDestruct "HΦ" as "[_ HΦ]". destruct (Hin k l) as [Hd Hks]; [apply lookup_insert|].
        iApply ("HΦ" $! _ _ k l with "[%] Hw Hl Hm"); [split; [done|lia]|]. iIntros "Hw".
        iApply ("Hks" with "[%] Hw"). { intros k1 Hk1. rewrite lookup_delete_ne //. congruence. }
        rewrite (_ : sub _ _ (delete k ks) = ∅); [iApply trieI_null|]. apply map_eq. intros k1.
        rewrite sub_lookup lookup_empty. destruct (decide _) as [Hd1|]; [|done]. destruct (decide (k1 = k)) as [->|Hne]; [apply lookup_delete|].
        rewrite lookup_delete_ne //. assert (Hs : sub (idg (S n)) (Z.of_nat j) ks !! k1 = None) by (rewrite Hsub lookup_insert_ne //).
        rewrite sub_lookup decide_True // in Hs.
      + iIntros (lp' h' k2 l2 [Hk2 Hlp']) "Hlp' Hl2 Hm Hcl". iDestruct "HΦ" as "[_ HΦ]".
        assert (Hne : k ≠ k2) by congruence.
        destruct (Hin k2 l2) as [Hd Hks]; [by rewrite lookup_insert_ne|].
        iApply ("HΦ" $! _ _ k2 l2 with "[%] Hlp' Hl2 Hm"); [done|]. iIntros "Hlp'". iSpecialize ("Hcl" with "Hlp'").
        iApply ("Hks" with "[%] Hw"). { intros k1 Hk1. rewrite lookup_delete_ne //. congruence. }
        rewrite (_ : sub _ _ (delete k2 ks) = <[k := l]> (delete k2 ks')).
        * iApply (trieI_node with "Hl Hcl"). by rewrite lookup_delete_ne.
        * rewrite -delete_insert_ne // -Hsub. apply map_eq. intros k1. rewrite sub_lookup. destruct (decide (k1 = k2)) as [->|Hn1].
          -- rewrite !lookup_delete. by destruct (decide _).
          -- rewrite !lookup_delete_ne // sub_lookup. done.
    - wp_ret. iDestruct (kidsI_all_zero with "HT") as %->; [apply idg_range|done|].
      iDestruct "HΦ" as "[HΦ _]". iApply ("HΦ" with "[//]"). by iApply mapw_free.
  Qed.

  Lemma wp_inp_remove_absent fuel lp key remove ks Φ : (14 ≤ fuel)%nat → (∀ k, is_Some (ks !! k) → ibdig k = ibdig key) →
    ks !! key = None → slot 15 lp ks -∗ (slot 15 lp ks -∗ Φ 0) -∗
    wp (inp_bucket_remove fuel INP_BUCKET_SHIFT lp remove key) Φ.
  Proof.
    iIntros (Hf Hag Hk) "Hs HΦ". rewrite /inp_bucket_remove. wp_bind. change INP_BUCKET_SHIFT with (ishift 14).
    iApply (wp_inp_find with "Hs"); [lia|lia|by intros; apply agreeI_14, Hag|].
    iIntros (m lp' h' ks') "Hcl Hlp [%Hk' %Hm] Hres". iDestruct "Hres" as "[(-> & _ & ->)|(%l & %Hl & _)]"; [|congruence].
    iApply wp_if_true; [done|]. wp_ret. iApply "HΦ". rewrite -{2}(alt_none key ks) //. iApply "Hcl". rewrite alt_none; [|apply lookup_empty].
    iExists 0. iFrame. iApply trieI_null.
  Qed.

  Lemma wp_inp_bucket_remove fuel lp key remove xs x ys ks Φ : (14 ≤ fuel)%nat → (∀ k, is_Some (ks !! k) → ibdig k = ibdig key) →
    ks !! key = Some (xs ++ x :: ys) → 0 < e_p x → remove = e_p x ∨ remove = 0 ∧ xs = [] →
    slot 15 lp ks -∗
    (∀ nx pv, slot 15 lp (upd key (xs ++ ys) ks) -∗ nodeI x nx pv -∗ freemap (e_p x) -∗ Φ (e_p x)) -∗
    wp (inp_bucket_remove fuel INP_BUCKET_SHIFT lp remove key) Φ.
  Proof.
    iIntros (Hf Hag Hk Hx Hrem) "Hs HΦ". rewrite /inp_bucket_remove. wp_bind. change INP_BUCKET_SHIFT with (ishift 14).
    iApply (wp_inp_find with "Hs"); [lia|lia|by intros; apply agreeI_14, Hag|].
    iIntros (m lp' h' ks') "Hcl Hlp [%Hk' %Hm] Hres". iDestruct "Hres" as "[(_ & %Hno & _)|(%l & %Hl & Hl & Hks)]"; [congruence|].
    rewrite Hk in Hl. injection Hl as <-. iDestruct (leafI_head with "Hl") as %Hh. iApply wp_if_false; [rewrite /null; lia|].
    iDestruct "Hl" as "[(_ & %HF & ->) [Hl Hms]]".
    iAssert (wp (inp_list_remove lp' (e_p x);;
      head ← load lp';
      if decide (head = hd_p (xs ++ x :: ys) 0) then mret (e_p x) else
      if decide (head <> null) then
        inp_copy_loop (Z.to_nat INP_TREE_MAX) head (e_p x) 0;;
        mret (e_p x)
      else
        r ← inp_leaf fuel 0 (e_p x);
        let '(leaf_let_ptr, leaf) := r in
        if decide (leaf_let_ptr = null) then mret (e_p x) else
        store leaf_let_ptr 0;;
        inp_copy_loop (Z.to_nat INP_TREE_MAX) leaf (e_p x) 0;;
        store lp' leaf;;
        mret (e_p x)) Φ) with "[-]" as "H"; last first.
    { destruct Hrem as [->|[-> ->]].
      - destruct (decide (e_p x = null)); [rewrite /null in e; lia|]. iExact "H".
      - destruct (decide (0 = null)); [|by rewrite /null in n]. iExact "H". }
    wp_bind. iApply (wp_inp_list_remove with "Hlp Hl"). iIntros (nx pv) "Hlp Hl Hx". wp_load.
    apply Forall_app in HF as [HF1 HF2]. inversion HF2 as [|? ? Hxi HF3]; subst.
    assert (HF : Forall (λ x, e_i x = W key) (xs ++ ys)) by (by apply Forall_app).
    destruct (decide (xs = [])) as [->|Hxs].
    - cbn [app hd_p tail] in *. destruct ys as [|y ys]; cbn [hd_p].
      + (* the list becomes empty *)
        iApply wp_if_false; [lia|]. iApply wp_if_false; [rewrite /null; tauto|]. wp_bind.
        iApply (wp_inp_leaf m fuel 0 (e_p x) with "Hks"); [lia|lia|].
        iSplit.
        * iIntros (->) "Hm". iApply wp_if_true; [done|]. wp_ret. iApply ("HΦ" with "[Hcl Hlp] Hx Hm"). rewrite upd_nil. iApply "Hcl".
          rewrite alt_none //. iExists 0. iFrame. iApply trieI_null.
        * iIntros (lp2 h2 k2 l2 [Hk2 Hlp2]) "Hlp2 Hl2 Hm Hks". iDestruct (leafI_head with "Hl2") as %Hh2.
          iApply wp_if_false; [rewrite /null; lia|]. wp_store. iDestruct ("Hks" with "Hlp2") as (hf) "[Hw HT]".
          wp_bind. iApply (wp_inp_copy4 with "Hw Hm"). iIntros "Hm Hw". wp_store. wp_ret. iApply ("HΦ" with "[-Hx Hm] Hx Hm").
          rewrite upd_nil. iApply "Hcl". rewrite alt_none //. iExists h2. iFrame "Hlp".
          iAssert (trieI (S m) h2 (<[k2 := l2]> (delete k2 ks'))) with "[Hl2 Hw HT]" as "HT"; [|by rewrite insert_delete].
          iApply (trieI_node with "Hl2"); [apply lookup_delete|]. iExists hf. iFrame.
      + (* the second becomes the head *)
        rewrite iseg_cons. iDestruct "Hl" as "[Hy Hl]".
        iAssert ⌜e_p y ≠ e_p x ∧ 0 < e_p y⌝%I as %[Hne Hy].
        { iDestruct "Hy" as "(% & Hy & _)". iDestruct "Hx" as "(_ & Hx & _)". iSplit; [|done]. iIntros (Heq). rewrite Heq. iApply (mapsto_excl with "Hx Hy"). }
        iApply wp_if_false; [done|]. iApply wp_if_true; [rewrite /null; lia|]. rewrite big_sepL_cons. iDestruct "Hms" as "[Hm Hms]".
        iDestruct "Hks" as (hf) "[Hw HT]". wp_bind. iApply (wp_inp_copy4 with "Hw Hm"). iIntros "Hm Hw". wp_ret.
        iApply ("HΦ" with "[-Hx Hm] Hx Hm"). rewrite upd_cons //. iApply "Hcl". iExists (e_p y). iFrame "Hlp". rewrite alt_some.
        iApply (trieI_node with "[Hy Hl Hms]"); [done| |iExists hf; iFrame].
        rewrite /leafI iseg_cons. iFrame. iPureIntro. split; [done|]. by split.
    - (* the head does not change *)
      assert (Hh1 : hd_p (xs ++ x :: ys) 0 = hd_p (xs ++ ys) 0) by (by destruct xs). rewrite Hh1 in Hh |- *.
      iApply wp_if_true; [done|]. wp_ret.
      rewrite (_ : tail (xs ++ x :: ys) = tail xs ++ x :: ys); [|by destruct xs]. rewrite big_sepL_app big_sepL_cons.
      iDestruct "Hms" as "(Hm1 & Hm & Hm2)". iApply ("HΦ" with "[-Hx Hm] Hx Hm"). rewrite upd_cons; [|by destruct xs]. iApply "Hcl".
      iExists (hd_p (xs ++ ys) 0). iFrame "Hlp". rewrite alt_some. iApply (trieI_node with "[-Hks] Hks"); [done|].
      rewrite /leafI. iFrame "Hl". iSplit; [iPureIntro; split; [by destruct xs|done]|].
      rewrite (_ : tail (xs ++ ys) = tail xs ++ ys); [|by destruct xs]. rewrite big_sepL_app. iFrame.
  Qed.
End inp.
