(** * Proofs about the trie: representation predicate and specifications of the
    functions. *)
From Verif Require Export TrieSpec ListProof AllocHist.
Global Open Scope Z_scope.

(** ** Digits of keys *)
Definition dig (n : nat) (k : Z) : Z := Z.land (shr k (3 * Z.of_nat n)) 7.

(** Two keys of the same bucket that agree on the digits from the [n]-th on. *)
Definition agree (n : nat) (k k' : Z) : Prop :=
  shr k (3 * Z.of_nat n) = shr k' (3 * Z.of_nat n) ∧ shr k 27 = shr k' 27.

Lemma dig_mod n k : dig n k = shr k (3 * Z.of_nat n) mod 8.
Proof. rewrite /dig. change 7 with (Z.ones 3). by rewrite Z.land_ones. Qed.
Lemma dig_range n k : 0 ≤ dig n k < 8.
Proof. rewrite dig_mod. by apply Z.mod_pos_bound. Qed.
Lemma shr_div k b : 0 ≤ b → shr k b = k `div` 2 ^ b.
Proof. intros. by rewrite /shr Z.shiftr_div_pow2. Qed.

Lemma shr_S k n : shr k (3 * Z.of_nat (S n)) = shr k (3 * Z.of_nat n) `div` 8.
Proof.
  rewrite !shr_div; [|lia..]. rewrite Z.div_div; [|lia..]. f_equal.
  rewrite -(Z.pow_add_r 2 (3 * Z.of_nat n) 3); [|lia..]. f_equal. lia.
Qed.
Lemma agree_S n k k' : agree (S n) k k' → dig n k = dig n k' → agree n k k'.
Proof.
  rewrite /agree !dig_mod !shr_S. intros [H1 H2] H3. split; [|done].
  generalize dependent (shr k (3 * Z.of_nat n)). generalize (shr k' (3 * Z.of_nat n)).
  intros. Z.to_euclidean_division_equations. lia.
Qed.
Lemma agree_0 k k' : agree 0 k k' → k = k'.
Proof. intros [H _]. rewrite !shr_div in H; [|lia..]. rewrite !Z.div_1_r in H. done. Qed.
Lemma agree_10 k k' : shr k 27 = shr k' 27 → agree 10 k k'.
Proof.
  intros H. split; [|done]. rewrite !shr_div in H; [|lia..]. rewrite !shr_div; [|lia..].
  replace (2 ^ (3 * Z.of_nat 10)) with (2 ^ 27 * 8) by done. rewrite -(Z.div_div k (2 ^ 27) 8) // -(Z.div_div k' (2 ^ 27) 8) //. by rewrite H.
Qed.
Lemma agree_sym n k k' : agree n k k' → agree n k' k.
Proof. intros [H1 H2]. by split. Qed.

(** ** Maps from keys to lists of elements *)
Notation kmapT := (gmap Z (list elem)).

Definition sub (dg : Z → Z) (j : Z) (ks : kmapT) : kmapT := filter (λ kv, dg kv.1 = j) ks.
(** Insertion and removal of an element. *)
Definition ins (k : Z) (x : elem) (ks : kmapT) : kmapT := <[k := default [] (ks !! k) ++ [x]]> ks.
Definition upd (k : Z) (l : list elem) (ks : kmapT) : kmapT := if decide (l = []) then delete k ks else <[k := l]> ks.

Lemma sub_lookup dg j ks k : sub dg j ks !! k = if decide (dg k = j) then ks !! k else None.
Proof.
  rewrite /sub. destruct (ks !! k) as [l|] eqn:Hk.
  - destruct (decide _).
    + by apply map_filter_lookup_Some.
    + apply map_filter_lookup_None. right. intros l' Hl'. simpl. done.
  - destruct (decide _); apply map_filter_lookup_None; by left.
Qed.
Lemma sub_ext dg j ks ks' : (∀ k, dg k = j → ks !! k = ks' !! k) → sub dg j ks = sub dg j ks'.
Proof. intros H. apply map_eq. intros k. rewrite !sub_lookup. destruct (decide (dg k = j)); auto. Qed.
Lemma sub_all dg j ks : (∀ k, is_Some (ks !! k) → dg k = j) → sub dg j ks = ks.
Proof.
  intros H. apply map_eq. intros k. rewrite sub_lookup. destruct (decide (dg k = j)); [done|].
  destruct (ks !! k) eqn:Hk; [|done]. exfalso. eauto.
Qed.
Lemma sub_none dg j ks : (∀ k, is_Some (ks !! k) → dg k ≠ j) → sub dg j ks = ∅.
Proof.
  intros H. apply map_eq. intros k. rewrite sub_lookup lookup_empty. destruct (decide (dg k = j)); [|done].
  destruct (ks !! k) eqn:Hk; [|done]. exfalso. eapply H; eauto.
Qed.
Lemma sub_insert dg j ks k l : sub dg j (<[k := l]> ks) = if decide (dg k = j) then <[k := l]> (sub dg j ks) else sub dg j ks.
Proof.
  apply map_eq. intros k'. rewrite sub_lookup. destruct (decide (k' = k)) as [->|Hne].
  - rewrite lookup_insert. destruct (decide (dg k = j)) as [Hd|Hd]; [by rewrite lookup_insert|by rewrite sub_lookup decide_False].
  - rewrite lookup_insert_ne //. destruct (decide (dg k = j)) as [Hd|Hd]; [rewrite lookup_insert_ne //|]; by rewrite sub_lookup.
Qed.
Lemma sub_ins dg j ks k x : sub dg j (ins k x ks) = if decide (dg k = j) then ins k x (sub dg j ks) else sub dg j ks.
Proof.
  apply map_eq. intros k'. rewrite sub_lookup /ins.
  destruct (decide (k' = k)) as [->|Hne].
  - rewrite lookup_insert. destruct (decide (dg k = j)) as [Hd|Hd].
    + by rewrite lookup_insert sub_lookup decide_True.
    + by rewrite sub_lookup decide_False.
  - rewrite lookup_insert_ne //. destruct (decide (dg k = j)) as [Hd|Hd].
    + by rewrite lookup_insert_ne // sub_lookup.
    + by rewrite sub_lookup.
Qed.
Lemma upd_lookup k l ks k' : upd k l ks !! k' = if decide (k' = k) then (if decide (l = []) then None else Some l) else ks !! k'.
Proof.
  rewrite /upd. destruct (decide (l = [])); destruct (decide (k' = k)) as [->|Hne].
  - by rewrite lookup_delete.
  - by rewrite lookup_delete_ne.
  - by rewrite lookup_insert.
  - by rewrite lookup_insert_ne.
Qed.
Lemma sub_upd dg j ks k l : sub dg j (upd k l ks) = if decide (dg k = j) then upd k l (sub dg j ks) else sub dg j ks.
Proof.
  apply map_eq. intros k'. rewrite sub_lookup upd_lookup. destruct (decide (k' = k)) as [->|Hne].
  - destruct (decide (dg k = j)) as [Hd|Hd]; [rewrite upd_lookup; by destruct (decide (k = k))|rewrite sub_lookup; by destruct (decide (dg k = j))].
  - destruct (decide (dg k = j)) as [Hd|Hd]; [rewrite upd_lookup sub_lookup; by destruct (decide (k' = k))|by rewrite sub_lookup].
Qed.

Lemma size_two (ks : kmapT) k k' : k ≠ k' → is_Some (ks !! k) → is_Some (ks !! k') → (2 ≤ size ks)%nat.
Proof.
  intros Hne [l Hl] [l' Hl']. rewrite -size_dom.
  assert (Hs : ({[k]} ∪ {[k']} : gset Z) ⊆ dom ks).
  { intros z Hz. apply elem_of_dom. apply elem_of_union in Hz as [->%elem_of_singleton| ->%elem_of_singleton]; by eexists. }
  apply subseteq_size in Hs. rewrite size_union in Hs; [|set_solver]. rewrite !size_singleton in Hs. lia.
Qed.
Lemma size_sub dg j (ks : kmapT) : (size (sub dg j ks) ≤ size ks)%nat.
Proof. rewrite -!size_dom. apply subseteq_size. apply dom_filter_subseteq. Qed.
Lemma size_pos_lookup (ks : kmapT) : ks ≠ ∅ → ∃ k, is_Some (ks !! k).
Proof. intros (k & l & Hk)%map_choose. exists k. by eexists. Qed.

(** ** Lists of blocks indexed by the children *)
Lemma bind_update {A} (N d : nat) (bf : nat → list A) : (d < N)%nat →
  ∃ r, seq 0 N ≫= bf ≡ₚ bf d ++ r ∧ ∀ bf', (∀ j, j ≠ d → bf' j = bf j) → seq 0 N ≫= bf' ≡ₚ bf' d ++ r.
Proof.
  intros Hd. assert (Hs : seq 0 N = seq 0 d ++ d :: seq (S d) (N - S d)).
  { replace N with (d + S (N - S d))%nat at 1 by lia. rewrite seq_app. simpl. done. }
  exists ((seq 0 d ≫= bf) ++ (seq (S d) (N - S d) ≫= bf)).
  assert (H : ∀ bf', (∀ j, j ≠ d → bf' j = bf j) → seq 0 N ≫= bf' ≡ₚ bf' d ++ (seq 0 d ≫= bf) ++ (seq (S d) (N - S d) ≫= bf)).
  { intros bf' Hbf. rewrite Hs bind_app. csimpl.
    assert (Hext : ∀ l, d ∉ l → l ≫= bf' = l ≫= bf).
    { clear -Hbf. induction l as [|j l IH]; intros Hl; [done|]. csimpl. rewrite IH; [|set_solver]. rewrite Hbf //. set_solver. }
    rewrite !Hext; [|rewrite elem_of_seq; lia..]. rewrite !assoc. f_equiv. apply (comm _). }
  split; [by apply H|exact H].
Qed.

(** ** Representation *)
Section trie.
  Context `{!memG}.
  Hypothesis Henv : memG_env.
  Variables bs al : Z.
  Hypothesis G : geo bs al.
  Hypothesis Hbs : 64 ≤ bs.
  Variable cl : gmap Z region.

  (** The allocator with its blocks [used], and the heap. *)
  Definition allocH (t : allocator) (used : gset Z) : iProp :=
    ∃ freed own, ⌜own ##ₘ cl⌝ ∗ allocR bs al t used freed own ∗ hctl (own ∪ cl).
  (** The words of a block after the first eight. *)
  Definition blkrest (b : Z) : iProp := [∗ list] k ∈ wcells (b + 64) (Z.to_nat (bs / 8) - 8), anyword k.
  Definition words8 (b : Z) : iProp := [∗ list] k ∈ wcells b 8, anyword k.

  Lemma blockR_words b : blockR bs b ⊣⊢ words8 b ∗ blkrest b.
  Proof.
    rewrite /blockR /words8 /blkrest. replace (Z.to_nat (bs / 8)) with (8 + (Z.to_nat (bs / 8) - 8))%nat at 1.
    - by rewrite wcells_app big_sepL_app.
    - assert (8 ≤ bs / 8) by (apply Z.div_le_lower_bound; lia). lia.
  Qed.

  Definition inner_ok (b : Z) : Prop := 0 < b ∧ b mod 8 = 0 ∧ b + 64 < 2 ^ 64.

  Lemma allocH_eq t u u' : u ≡ u' → allocH t u -∗ allocH t u'.
  Proof. intros ->%leibniz_equiv. by iIntros. Qed.

  Lemma allocH_inner t used b : b ∈ used → allocH t used -∗ ⌜inner_ok b⌝.
  Proof.
    iIntros (Hb) "(%freed & %own & _ & Ha & _)". iDestruct (allocR_facts bs al G with "Ha") as %(_ & _ & _ & _ & Hok & Hin & _).
    iPureIntro. destruct (Hin _ Hb) as (H0 & Hm & c & r & Hr & H1 & H2). split; [done|]. split.
    - pose proof (geo_al8 _ _ G) as Ha8. pose proof (geo_al _ _ G).
      apply Z.mod_divide in Hm; [|lia]. apply Z.mod_divide in Ha8; [|lia]. apply Z.mod_divide; [lia|]. by etrans.
    - destruct Hok as [Hok _]. specialize (Hok _ _ Hr). lia.
  Qed.

  Lemma wp_alloc t used Φ : allocH t used -∗
    (∀ p t', ⌜p ∉ used⌝ -∗ ⌜inner_ok p⌝ -∗ allocH t' ({[p]} ∪ used) -∗ words8 p -∗ blkrest p -∗ Φ (p, t')) -∗
    wp (allocator_alloc t) Φ.
  Proof.
    iIntros "(%freed & %own & %Hd & Ha & Hc) HΦ". iApply (wp_alloc_block bs al G Henv with "Ha Hc"); [done|].
    iIntros (p t' own' Hp Hd' _ _) "Ha Hc Hb". rewrite blockR_words. iDestruct "Hb" as "[Hw Hr]".
    iAssert (allocH t' ({[p]} ∪ used)) with "[Ha Hc]" as "Ha"; [iExists _, _; by iFrame|].
    iDestruct (allocH_inner _ _ p with "Ha") as %Hi; [set_solver|]. iApply ("HΦ" with "[//] [//] Ha Hw Hr").
  Qed.

  Lemma wp_free_inner t used p Φ : p ∈ used → allocH t used -∗ words8 p -∗ blkrest p -∗
    (∀ t', allocH t' (used ∖ {[p]}) -∗ Φ t') -∗ wp (allocator_free t p) Φ.
  Proof.
    iIntros (Hp) "(%freed & %own & %Hd & Ha & Hc) Hw Hr HΦ".
    iApply (wp_free_block bs al G Henv with "Ha [Hw Hr]"); [done| |].
    { rewrite blockR_words. iFrame. }
    iIntros (t') "Ha". iApply "HΦ". iExists _, _. by iFrame.
  Qed.

  (** Children: word [j] at [b] is the subtrie of the keys of digit [j]. *)
  Definition kid (dg : Z → Z) (T : Z → kmapT → list Z → iProp) (b : Z) (ks : kmapT)
      (hf : nat → Z) (bf : nat → list Z) (j : nat) : iProp :=
    (b + 8 * Z.of_nat j) ↦ W (hf j) ∗ T (hf j) (sub dg (Z.of_nat j) ks) (bf j).
  Definition kids (N : nat) (dg : Z → Z) (T : Z → kmapT → list Z → iProp) (b : Z) (ks : kmapT) (bl : list Z) : iProp :=
    ∃ hf bf, ⌜bl ≡ₚ seq 0 N ≫= bf⌝ ∗ [∗ list] j ∈ seq 0 N, kid dg T b ks hf bf j.

  Definition leafR (h k : Z) (l : list elem) : iProp :=
    ⌜l ≠ [] ∧ Forall (λ x, e_i x = W k ∧ e_p x mod 8 = 0) l ∧ h = hd_p l 0⌝ ∗ dseg l (last_p 0 l) 0.

  (** The trie of [n] levels below a pointer [h], with its blocks [bl]. *)
  Fixpoint trieR (n : nat) (h : Z) (ks : kmapT) (bl : list Z) : iProp :=
    ⌜h = 0 ∧ ks = ∅ ∧ bl = []⌝ ∨
    (∃ k l, ⌜ks = {[k := l]} ∧ bl = []⌝ ∗ leafR h k l) ∨
    match n with
    | O => False
    | S n => ∃ (b : Z) (bl' : list Z), ⌜h = (b + 1)%Z ∧ inner_ok b ∧ bl ≡ₚ b :: bl' ∧ (2 ≤ size ks)%nat⌝ ∗ blkrest b ∗ kids 8 (dig n) (trieR n) b ks bl'
    end.
  Definition treeKR (n : nat) (h : Z) (ks : kmapT) (bl : list Z) : iProp :=
    ∃ (b : Z) (bl' : list Z), ⌜h = (b + 1)%Z ∧ inner_ok b ∧ bl ≡ₚ b :: bl' ∧ (2 ≤ size ks)%nat⌝ ∗ blkrest b ∗ kids 8 (dig n) (trieR n) b ks bl'.

  Lemma trieR_cases n h ks bl : trieR n h ks bl ⊣⊢
    ⌜h = 0 ∧ ks = ∅ ∧ bl = []⌝ ∨ (∃ k l, ⌜ks = {[k := l]} ∧ bl = []⌝ ∗ leafR h k l) ∨
    (∃ n', ⌜n = S n'⌝ ∗ treeKR n' h ks bl).
  Proof.
    destruct n as [|n]; simpl.
    - iSplit; iIntros "[H|[H|H]]"; [by iLeft|by iRight; iLeft|done|by iLeft|by iRight; iLeft|].
      iDestruct "H" as (n' [=]) "_".
    - iSplit; iIntros "[H|[H|H]]"; [by iLeft|by iRight; iLeft| |by iLeft|by iRight; iLeft|].
      + iRight. iRight. iExists n. by iSplit.
      + iDestruct "H" as (n' [= <-]) "H". by iRight; iRight.
  Qed.
  Lemma trieR_null n : ⊢ trieR n 0 ∅ [].
  Proof. rewrite trieR_cases. by iLeft. Qed.
  Lemma trieR_leaf n h k l : leafR h k l -∗ trieR n h {[k := l]} [].
  Proof. rewrite trieR_cases. iIntros "H". iRight. iLeft. iExists k, l. by iFrame. Qed.
  Lemma trieR_tree n h ks bl : treeKR n h ks bl -∗ trieR (S n) h ks bl.
  Proof. rewrite (trieR_cases (S n)). iIntros "H". iRight. iRight. iExists n. by iFrame. Qed.

  Lemma leafR_head h k l : leafR h k l -∗ ⌜0 < h ∧ h mod 8 = 0⌝.
  Proof.
    iIntros "[(%Hne & %HF & ->) Hl]". iDestruct (dseg_pos with "Hl") as %Hp. iPureIntro.
    destruct l as [|x l]; [done|]. inversion Hp; inversion HF; subst; simpl. naive_solver.
  Qed.
  Lemma type_even h : h mod 8 = 0 → trie_get_type h = 0.
  Proof. intros. rewrite /trie_get_type (Z.land_ones _ 1) //. Z.to_euclidean_division_equations. lia. Qed.
  Lemma type_odd b : b mod 8 = 0 → trie_get_type (b + 1) = 1.
  Proof. intros. rewrite /trie_get_type (Z.land_ones _ 1) //. Z.to_euclidean_division_equations. lia. Qed.
  Lemma tree_set_get b : inner_ok b → trie_set_tree b = b + 1 ∧ trie_get_tree (b + 1) = b.
  Proof. intros (H1 & H2 & H3). rewrite /trie_set_tree /trie_get_tree /add64 /sub64 !Z.mod_small; lia. Qed.

  Lemma wp_digit k n Φ : (n < 10)%nat → Φ (dig n k) -∗ wp (trie_digit k (3 * Z.of_nat n)) Φ.
  Proof.
    iIntros (Hn) "H". rewrite /trie_digit /shr_key. wp_bind. rewrite decide_True; [|lia]. wp_ret. by wp_ret.
  Qed.

  Lemma kids_acc N dg T b ks bl z : 0 ≤ z < Z.of_nat N →
    kids N dg T b ks bl -∗ ∃ h bd r, ⌜bl ≡ₚ bd ++ r⌝ ∗ (b + 8 * z) ↦ W h ∗ T h (sub dg z ks) bd ∗
      (∀ h' ks' bd', ⌜∀ k, dg k ≠ z → ks' !! k = ks !! k⌝ -∗ (b + 8 * z) ↦ W h' -∗
        T h' (sub dg z ks') bd' -∗ kids N dg T b ks' (bd' ++ r)).
  Proof.
    iIntros (Hz) "(%hf & %bf & %Hbl & H)". remember (Z.to_nat z) as d eqn:Hd. assert (z = Z.of_nat d) as -> by lia. clear Hd.
    assert (Hd : (d < N)%nat) by lia. destruct (bind_update N d bf Hd) as (r & Hr1 & Hr2).
    iDestruct (big_sepL_lookup_acc_impl d d with "H") as "[[Hk HT] H]"; [by apply lookup_seq|].
    iExists _, _, r. iSplit; [iPureIntro; by rewrite Hbl|]. iFrame "Hk HT". iIntros (h' ks' bd' Hks) "Hk HT".
    iExists (λ j, if decide (j = d) then h' else hf j), (λ j, if decide (j = d) then bd' else bf j). iSplit.
    - iPureIntro. rewrite Hr2; [|by intros j Hj; rewrite decide_False]. by rewrite decide_True.
    - iApply ("H" $! (λ _ j, kid dg T b ks' (λ j, if decide (j = d) then h' else hf j) (λ j, if decide (j = d) then bd' else bf j) j)).
      + iIntros "!>" (j j' [-> _]%lookup_seq Hj) "[Hk HT]". rewrite /kid !decide_False //.
        rewrite (sub_ext _ _ ks' ks); [iFrame|]. intros k Hk. apply Hks. simpl in Hk. lia.
      + rewrite /kid !decide_True //. iFrame.
  Qed.

  Lemma kids_empty N dg T b : (⊢ T 0 ∅ []) → ([∗ list] k ∈ wcells b N, k ↦ W 0) -∗ kids N dg T b ∅ [].
  Proof.
    iIntros (HT) "H". iExists (λ _, 0), (λ _, []). iSplit.
    - iPureIntro. generalize (seq 0 N). intros l. induction l as [|? ? IH]; [done|]. csimpl. by rewrite -IH.
    - rewrite /wcells big_sepL_fmap. iApply (big_sepL_impl with "H"). iIntros "!>" (j j' _) "H". rewrite /kid sub_none; [|by intros k [? ?%lookup_empty_Some]].
      iFrame. iApply HT.
  Qed.
  Lemma trieR_perm n h ks bl bl' : bl ≡ₚ bl' → trieR n h ks bl -∗ trieR n h ks bl'.
  Proof.
    intros Hb. rewrite !trieR_cases. iIntros "[H|[H|H]]".
    - iDestruct "H" as %(? & ? & ->). apply Permutation_nil_l in Hb as <-. iLeft. done.
    - iDestruct "H" as (k l [-> ->]) "H". apply Permutation_nil_l in Hb as <-. iRight. iLeft. iExists k, l. by iFrame.
    - iDestruct "H" as (n' ->) "(%b & %bl1 & (%H1 & %H2 & %H3 & %H4) & H)". iRight. iRight. iExists n'. iSplit; [done|].
      iExists b, bl1. iFrame. iPureIntro. by rewrite -Hb.
  Qed.

  Lemma wp_clear_loop b n Φ : ([∗ list] k ∈ wcells b n, anyword k) -∗
    (([∗ list] k ∈ wcells b n, k ↦ W 0) -∗ Φ tt) -∗ wp (clear_loop b n) Φ.
  Proof.
    iIntros "H HΦ". iInduction n as [|n] "IH" forall (b); cbn [clear_loop].
    - wp_ret. by iApply "HΦ".
    - rewrite (wcells_app b 1 n : wcells b (S n) = _) !big_sepL_app /=. replace (b + 8 * Z.of_nat 0) with b by lia.
      iDestruct "H" as "[[(%c & %Hc & Hb) _] H]". wp_store. replace (b + 8 * Z.of_nat 1) with (b + 8) by lia.
      iApply ("IH" with "H"). iIntros "H". iApply "HΦ". iFrame.
  Qed.

  (** A node with its data and key, that is being inserted. *)
  Definition freshR (x : elem) : iProp :=
    ⌜0 < e_p x⌝ ∗ (∃ c, ⌜wordcell c⌝ ∗ f_next (e_p x) ↦ c) ∗ (∃ c, ⌜wordcell c⌝ ∗ f_prev (e_p x) ↦ c) ∗
    f_data (e_p x) ↦ W (e_d x) ∗ f_index (e_p x) ↦ e_i x.
  Definition elem_ok (k : Z) (x : elem) : Prop := e_i x = W k ∧ e_p x mod 8 = 0.

  Lemma wp_insert_first lp c x k Φ : elem_ok k x → wordcell c → freshR x -∗ lp ↦ c -∗
    (lp ↦ W (e_p x) -∗ leafR (e_p x) k [x] -∗ Φ tt) -∗ wp (list_insert_first lp (e_p x)) Φ.
  Proof.
    iIntros (Hx Hc) "(%Hp & (%c1 & %H1 & Hn) & (%c2 & %H2 & Hv) & Hd & Hi) Hl HΦ". rewrite /list_insert_first.
    wp_store. wp_store. wp_store. iApply ("HΦ" with "Hl"). rewrite /leafR. iSplit.
    - iPureIntro. split; [done|]. split; [|done]. by constructor; [|constructor].
    - rewrite dseg_cons /nodeP /=. iFrame. done.
  Qed.
  Lemma wp_insert_tail_leaf h l x k Φ : elem_ok k x → freshR x -∗ leafR h k l -∗
    (leafR h k (l ++ [x]) -∗ Φ tt) -∗ wp (list_insert_tail_not_empty h (e_p x)) Φ.
  Proof.
    iIntros (Hx) "(%Hp & (%c1 & %H1 & Hn) & (%c2 & %H2 & Hv) & Hd & Hi) [(%Hne & %HF & ->) Hl] HΦ". rewrite /list_insert_tail_not_empty.
    iDestruct (dseg_ends with "Hl") as "(%Hhp&Hhp&Htn&Hl)"; first done.
    wp_load. wp_store. wp_store. wp_store. wp_load. wp_store. iApply "HΦ". rewrite /leafR. iSplit.
    - iPureIntro. split; [by destruct l|]. split; [|by destruct l]. apply Forall_app. split; [done|]. by constructor; [|constructor].
    - rewrite last_p_snoc dseg_snoc. iSplitR "Hn Hv Hd Hi".
      + iApply ("Hl" with "Hhp Htn").
      + rewrite (last_p_indep _ 0) //. rewrite /nodeP. iFrame. done.
  Qed.

  Lemma leafR_key h k l : leafR h k l -∗ f_index h ↦ W k ∗ (f_index h ↦ W k -∗ leafR h k l).
  Proof.
    iIntros "[(%Hne & %HF & ->) Hl]". destruct l as [|x l]; [done|]. inversion HF as [|? ? [Hi Hm] HF']; subst. rewrite /leafR dseg_cons /nodeP Hi.
    iDestruct "Hl" as "[(Hp & Hn & Hv & Hd & Hk) Hl]". iFrame "Hk". iIntros "Hk". iSplit; [done|]. iFrame.
  Qed.

  Lemma expand_sizes (k key : Z) (l l' : list elem) : k ≠ key → (2 ≤ size (<[key := l']> ({[k := l]} : kmapT)))%nat.
  Proof. intros. apply (size_two _ k key); [done|rewrite lookup_insert_ne // lookup_singleton|rewrite lookup_insert]; by eexists. Qed.

  Lemma trie_expand_unfold fuel t nc shift lp node insert key :
    trie_expand fuel t nc shift lp node insert key =
    (r ← allocator_alloc t;
    let tree := r.1 in
    let node_count := add64 nc 1 in
    store lp (trie_set_tree tree);;
    clear_loop tree (Z.to_nat TRIE_TREE_MAX);;
    index ← load (f_index node);
    i ← trie_digit index shift;
    j ← trie_digit key shift;
    if decide (i <> j) then
      store (tree + 8 * i) node;;
      list_insert_first (tree + 8 * j) insert;;
      mret (r.2, node_count)
    else
      match fuel with
      | O => fuel_out
      | S fuel => trie_expand fuel r.2 node_count (sub32 shift TRIE_TREE_BIT) (tree + 8 * i) node insert key
      end).
  Proof. by destruct fuel. Qed.

  (** The two keys go to different children. *)
  Lemma wp_split n p node k l x key (r : allocator * Z) Φ : k ≠ key → dig n k ≠ dig n key → elem_ok key x → inner_ok p →
    kids 8 (dig n) (trieR n) p ∅ [] -∗ blkrest p -∗ leafR node k l -∗ freshR x -∗
    (treeKR n (p + 1) (<[key := [x]]> {[k := l]}) [p] -∗ Φ r) -∗
    wp (store (p + 8 * dig n k) node;; list_insert_first (p + 8 * dig n key) (e_p x);; mret r) Φ.
  Proof.
    iIntros (Hne Hd Hx Hp) "Hk Hr Hleaf Hx HΦ".
    iDestruct (kids_acc _ _ _ _ _ _ (dig n k) with "Hk") as (h bd r0) "(%Hbl & Hw & HT & Hk)"; [apply dig_range|].
    wp_store. apply Permutation_nil_l in Hbl as [-> ->]%symmetry%app_eq_nil.
    iDestruct ("Hk" $! _ {[k := l]} [] with "[] Hw [Hleaf]") as "Hk".
    { iPureIntro. intros k' Hk'. rewrite lookup_empty lookup_singleton_ne //. congruence. }
    { rewrite sub_all; [by iApply trieR_leaf|]. intros k' [? [<- _]%lookup_singleton_Some]. done. }
    iDestruct (kids_acc _ _ _ _ _ _ (dig n key) with "Hk") as (h' bd' r') "(%Hbl & Hw & _ & Hk)"; [apply dig_range|].
    apply Permutation_nil_l in Hbl as [-> ->]%symmetry%app_eq_nil.
    wp_bind. iApply (wp_insert_first with "Hx Hw"); [done..|]. iIntros "Hw Hx". wp_ret. iApply "HΦ".
    iExists p, []. iSplit; [iPureIntro; split; [done|]; split; [done|]; split; [done|by apply expand_sizes]|]. iFrame "Hr".
    iApply ("Hk" $! _ _ [] with "[] Hw [Hx]").
    - iPureIntro. intros k' Hk'. rewrite lookup_insert_ne //. congruence.
    - rewrite sub_insert decide_True // sub_none; [by iApply trieR_leaf|]. intros k' [? [<- _]%lookup_singleton_Some]. done.
  Qed.

  Lemma wp_expand n fuel t used nc lp c node k l x key Φ : (n < 10)%nat → (n ≤ fuel)%nat → k ≠ key → agree (S n) k key →
    elem_ok key x → wordcell c →
    allocH t used -∗ lp ↦ c -∗ leafR node k l -∗ freshR x -∗
    (∀ t' new h', ⌜NoDup new ∧ list_to_set new ## used⌝ -∗ allocH t' (list_to_set new ∪ used) -∗ lp ↦ W h' -∗
      treeKR n h' (<[key := [x]]> {[k := l]}) new -∗ Φ (t', (nc + Z.of_nat (length new)) mod 2 ^ 64)) -∗
    wp (trie_expand fuel t nc (3 * Z.of_nat n) lp node (e_p x) key) Φ.
  Proof.
    iIntros (Hn Hf Hne Hag Hx Hc) "Ha Hl Hleaf Hx HΦ".
    iInduction n as [|n] "IH" forall (fuel t used nc lp c Φ Hf Hn Hag Hc).
    all: rewrite trie_expand_unfold.
    all: wp_bind; iApply (wp_alloc with "Ha"); iIntros (p t' Hp Hi) "Ha Hw Hr"; cbn [fst snd].
    all: destruct (tree_set_get _ Hi) as [Hset Hget]; rewrite Hset.
    all: wp_store; wp_bind; iApply (wp_clear_loop with "Hw"); iIntros "Hw".
    all: iDestruct (leafR_key with "Hleaf") as "[Hk Hleaf]"; wp_load; iSpecialize ("Hleaf" with "Hk").
    all: wp_bind; iApply wp_digit; [lia|]; wp_bind; iApply wp_digit; [lia|].
    - iDestruct (kids_empty 8 (dig 0) (trieR 0) with "Hw") as "Hw"; [apply trieR_null|].
      destruct (decide (dig 0 k = dig 0 key)) as [He|He].
      { exfalso. apply Hne, agree_0. by apply agree_S. }
      rewrite decide_True //. iApply (wp_split with "Hw Hr Hleaf Hx"); [done..|].
      iIntros "Ht". iApply ("HΦ" $! _ [p] with "[] [Ha] Hl Ht").
      + iPureIntro. split; [apply NoDup_singleton|set_solver].
      + iApply (allocH_eq with "Ha"). set_solver.
    - iDestruct (kids_empty 8 (dig (S n)) (trieR (S n)) with "Hw") as "Hw"; [apply trieR_null|].
      destruct (decide (dig (S n) k = dig (S n) key)) as [He|He]; last first.
      { rewrite decide_True //. iApply (wp_split with "Hw Hr Hleaf Hx"); [done..|].
        iIntros "Ht". iApply ("HΦ" $! _ [p] with "[] [Ha] Hl Ht").
        + iPureIntro. split; [apply NoDup_singleton|set_solver].
        + iApply (allocH_eq with "Ha"). set_solver. }
      rewrite decide_False; [|by intros ?]. destruct fuel as [|fuel]; [lia|].
      replace (sub32 (3 * Z.of_nat (S n)) TRIE_TREE_BIT) with (3 * Z.of_nat n); last first.
      { rewrite /sub32 /TRIE_TREE_BIT Z.mod_small; lia. }
      iDestruct (kids_acc _ _ _ _ _ _ (dig (S n) k) with "Hw") as (h bd r0) "(%Hbl & Hw & _ & Hk)"; [apply dig_range|].
      apply Permutation_nil_l in Hbl as [-> ->]%symmetry%app_eq_nil.
      iApply ("IH" with "[%] [%] [%] [%] Ha Hw Hleaf Hx"); [lia|lia|by apply agree_S|done|].
      iIntros (t2 new h' [Hnd Hdis]) "Ha Hw Ht".
      replace ((add64 nc 1 + Z.of_nat (length new)) mod 2 ^ 64) with ((nc + Z.of_nat (length (p :: new))) mod 2 ^ 64); last first.
      { rewrite /add64 Zplus_mod_idemp_l. f_equal. simpl. lia. }
      iApply ("HΦ" $! _ (p :: new) with "[] [Ha] Hl [Ht Hw Hk Hr]").
      + iPureIntro. split; [|set_solver]. constructor; [|done]. intros Hin. apply (Hdis p); [by apply elem_of_list_to_set|set_solver].
      + iApply (allocH_eq with "Ha"). set_solver.
      + iExists p, new. iSplit; [iPureIntro; split; [done|]; split; [done|]; split; [done|by apply expand_sizes]|]. iFrame "Hr".
        iDestruct ("Hk" $! _ (<[key := [x]]> {[k := l]}) new with "[] Hw [Ht]") as "Hk".
        * iPureIntro. intros k' Hk'. rewrite lookup_insert_ne; [|congruence]. rewrite lookup_singleton_ne //. congruence.
        * rewrite sub_all; [by iApply trieR_tree|]. intros k' [? [[<- _]|[_ [<- _]%lookup_singleton_Some]]%lookup_insert_Some]; done.
        * by rewrite app_nil_r.
  Qed.

  (** ** Insertion *)
  Lemma trie_bucket_insert_unfold fuel t nc shift lp insert key :
    trie_bucket_insert fuel t nc shift lp insert key =
    (ptr ← load lp;
     if decide (ptr = null) then
      list_insert_first lp insert;;
      mret (t, nc)
    else if decide (trie_get_type ptr = 1) then
      d ← trie_digit key shift;
      match fuel with
      | O => fuel_out
      | S fuel =>
          trie_bucket_insert fuel t nc (sub32 shift TRIE_TREE_BIT) (trie_get_tree ptr + 8 * d) insert key
      end
    else
      index ← load (f_index ptr);
      if decide (index = key) then
        list_insert_tail_not_empty ptr insert;;
        mret (t, nc)
      else trie_expand fuel t nc shift lp ptr insert key).
  Proof. by destruct fuel. Qed.
  Lemma ins_leaf k x l : ins k x {[k := l]} = {[k := l ++ [x]]}.
  Proof. by rewrite /ins lookup_singleton insert_singleton. Qed.
  Lemma size_ins k x ks : (size ks ≤ size (ins k x ks))%nat.
  Proof. rewrite -!size_dom. apply subseteq_size. rewrite /ins dom_insert. set_solver. Qed.
  Lemma wp_bucket_insert_done n t used nc lp h ks bl Φ : 0 ≤ nc < 2 ^ 64 →
    (∀ t' new h' bl', ⌜NoDup new ∧ list_to_set new ## used ∧ bl' ≡ₚ new ++ bl⌝ -∗ allocH t' (list_to_set new ∪ used) -∗ lp ↦ W h' -∗
      trieR n h' ks bl' -∗ Φ (t', (nc + Z.of_nat (length new)) mod 2 ^ 64)) -∗
    allocH t used -∗ lp ↦ W h -∗ trieR n h ks bl -∗ Φ (t, nc).
  Proof.
    iIntros (Hnc) "HΦ Ha Hl HT". iSpecialize ("HΦ" $! t [] h bl with "[] [Ha] Hl HT").
    - iPureIntro. split; [constructor|]. split; [set_solver|done].
    - iApply (allocH_eq with "Ha"). set_solver.
    - simpl. rewrite Z.add_0_r Z.mod_small //.
  Qed.

  Lemma wp_bucket_insert n fuel t used nc shift lp h ks bl x key Φ : (n ≤ 10)%nat → (n ≤ fuel)%nat →
    (n ≠ 0%nat → shift = 3 * Z.of_nat (pred n)) → (∀ k, is_Some (ks !! k) → agree n k key) → elem_ok key x → 0 ≤ nc < 2 ^ 64 →
    allocH t used -∗ lp ↦ W h -∗ trieR n h ks bl -∗ freshR x -∗
    (∀ t' new h' bl', ⌜NoDup new ∧ list_to_set new ## used ∧ bl' ≡ₚ new ++ bl⌝ -∗ allocH t' (list_to_set new ∪ used) -∗ lp ↦ W h' -∗
      trieR n h' (ins key x ks) bl' -∗ Φ (t', (nc + Z.of_nat (length new)) mod 2 ^ 64)) -∗
    wp (trie_bucket_insert fuel t nc shift lp (e_p x) key) Φ.
  Proof.
    iIntros (Hn Hf Hsh Hag Hx Hnc) "Ha Hl HT Hx HΦ".
    iInduction n as [|n] "IH" forall (fuel t used shift lp h ks bl Φ Hn Hf Hsh Hag).
    all: rewrite trie_bucket_insert_unfold; wp_load; rewrite trieR_cases; iDestruct "HT" as "[HT|[HT|HT]]".
    - iDestruct "HT" as %(-> & -> & ->). wp_if.
      wp_bind. iApply (wp_insert_first with "Hx Hl"); [done..|]. iIntros "Hl Hx". wp_ret.
      iApply (wp_bucket_insert_done with "HΦ Ha Hl"); [done|]. by iApply trieR_leaf.
    - iDestruct "HT" as (k l [-> ->]) "HT". iDestruct (leafR_head with "HT") as %[Hh Hm].
      wp_if. rewrite type_even //. wp_if.
      iDestruct (leafR_key with "HT") as "[Hk HT]". wp_load. iSpecialize ("HT" with "Hk").
      assert (k = key) as ->. { apply agree_0, Hag. rewrite lookup_singleton. by eexists. }
      wp_if. wp_bind. iApply (wp_insert_tail_leaf with "Hx HT"); [done|]. iIntros "HT". wp_ret.
      iApply (wp_bucket_insert_done with "HΦ Ha Hl"); [done|]. rewrite ins_leaf. by iApply trieR_leaf.
    - iDestruct "HT" as (n' [=]) "_".
    - iDestruct "HT" as %(-> & -> & ->). wp_if.
      wp_bind. iApply (wp_insert_first with "Hx Hl"); [done..|]. iIntros "Hl Hx". wp_ret.
      iApply (wp_bucket_insert_done with "HΦ Ha Hl"); [done|]. by iApply trieR_leaf.
    - iDestruct "HT" as (k l [-> ->]) "HT". iDestruct (leafR_head with "HT") as %[Hh Hm].
      wp_if. rewrite type_even //. wp_if.
      iDestruct (leafR_key with "HT") as "[Hk HT]". wp_load. iSpecialize ("HT" with "Hk").
      destruct (decide (k = key)) as [->|Hne].
      + wp_bind. iApply (wp_insert_tail_leaf with "Hx HT"); [done|]. iIntros "HT". wp_ret.
        iApply (wp_bucket_insert_done with "HΦ Ha Hl"); [done|]. rewrite ins_leaf. by iApply trieR_leaf.
      + rewrite Hsh //. iApply (wp_expand with "Ha Hl HT Hx"); [simpl; lia|simpl; lia|done|apply Hag; rewrite lookup_singleton; by eexists|done..|].
        iIntros (t' new h' [Hnd Hdis]) "Ha Hl HT". iApply ("HΦ" $! _ new _ new with "[] Ha Hl").
        { iPureIntro. by rewrite app_nil_r. }
        iApply trieR_tree. by rewrite /ins lookup_singleton_ne.
    - iDestruct "HT" as (n' [= <-] b bl1 (-> & Hi & Hbl & Hsz)) "[Hr Hk]". destruct (tree_set_get _ Hi) as [Hset Hget].
      destruct Hi as (Hi1 & Hi2 & Hi3). wp_if. rewrite type_odd //. wp_if. rewrite Hget Hsh //.
      wp_bind. iApply wp_digit; [simpl; lia|]. destruct fuel as [|fuel]; [lia|].
      iDestruct (kids_acc _ _ _ _ _ _ (dig n key) with "Hk") as (h bd r0) "(%Hbl1 & Hw & HT & Hk)"; [apply dig_range|].
      iApply ("IH" with "[%] [%] [%] [%] Ha Hw HT Hx"); [lia|lia| | |].
      { intros Hn0. rewrite /sub32 /TRIE_TREE_BIT Z.mod_small; simpl; lia. }
      { intros k. rewrite sub_lookup. destruct (decide (dig n k = dig n key)); [|by intros []]. intros. apply agree_S; [by apply Hag|done]. }
      iIntros (t' new h' bl' (Hnd & Hdis & Hbl')) "Ha Hw HT".
      iApply ("HΦ" $! _ new _ (b :: bl' ++ r0) with "[] Ha Hl").
      { iPureIntro. split; [done|]. split; [done|]. rewrite Hbl Hbl1 Hbl'. by rewrite -!Permutation_middle assoc. }
      iApply trieR_tree. iExists b, (bl' ++ r0). iSplit.
      { iPureIntro. split; [done|]. split; [done|]. split; [done|]. etrans; [exact Hsz|]. apply size_ins. }
      iFrame "Hr". iApply ("Hk" with "[] Hw").
      + iPureIntro. intros k Hk. rewrite /ins lookup_insert_ne //. congruence.
      + by rewrite sub_ins decide_True.
  Qed.

  (** ** Search *)
  Lemma trie_bucket_loop_unfold fuel shift ptr key :
    trie_bucket_loop fuel shift ptr key =
    (if decide (ptr = null) then mret 0
    else if decide (trie_get_type ptr = 0) then
      index ← load (f_index ptr);
      mret (if decide (index <> key) then 0 else ptr)
    else
      d ← trie_digit key shift;
      ptr' ← load (trie_get_tree ptr + 8 * d);
      match fuel with
      | O => fuel_out
      | S fuel => trie_bucket_loop fuel (sub32 shift TRIE_TREE_BIT) ptr' key
      end).
  Proof. by destruct fuel. Qed.

  Lemma leafR_hd h k l : leafR h k l -∗ ⌜h = hd_p l 0⌝.
  Proof. iIntros "[(_ & _ & $) _]". Qed.

  Lemma wp_bucket_loop n fuel shift h ks bl key Φ : (n ≤ 10)%nat → (n ≤ fuel)%nat →
    (n ≠ 0%nat → shift = 3 * Z.of_nat (pred n)) →
    trieR n h ks bl -∗ (trieR n h ks bl -∗ Φ (hd_p (default [] (ks !! key)) 0)) -∗
    wp (trie_bucket_loop fuel shift h key) Φ.
  Proof.
    iIntros (Hn Hf Hsh) "HT HΦ".
    iInduction n as [|n] "IH" forall (fuel shift h ks bl Φ Hn Hf Hsh).
    all: rewrite trie_bucket_loop_unfold; iEval (rewrite trieR_cases) in "HT"; iDestruct "HT" as "[HT|[HT|HT]]".
    1,4: iDestruct "HT" as %(-> & -> & ->); wp_if; wp_ret; rewrite lookup_empty; iApply "HΦ"; iApply trieR_null.
    1,3: iDestruct "HT" as (k l [-> ->]) "HT"; iDestruct (leafR_head with "HT") as %[Hh Hm]; iDestruct (leafR_hd with "HT") as %Hhd;
      wp_if; rewrite type_even //; wp_if; iDestruct (leafR_key with "HT") as "[Hk HT]"; wp_load; iSpecialize ("HT" with "Hk"); wp_ret;
      iDestruct (trieR_leaf with "HT") as "HT"; iSpecialize ("HΦ" with "HT");
      destruct (decide (k = key)) as [->|Hne]; [rewrite lookup_singleton /= -Hhd; by destruct (decide _)|rewrite lookup_singleton_ne //=; by destruct (decide _)].
    - iDestruct "HT" as (n' [=]) "_".
    - iDestruct "HT" as (n' [= <-] b bl1 (-> & Hi & Hbl & Hsz)) "[Hr Hk]". destruct (tree_set_get _ Hi) as [Hset Hget].
      destruct Hi as (Hi1 & Hi2 & Hi3). wp_if. rewrite type_odd //. wp_if. rewrite Hget Hsh //.
      wp_bind. iApply wp_digit; [simpl; lia|]. destruct fuel as [|fuel]; [lia|].
      iDestruct (kids_acc _ _ _ _ _ _ (dig n key) with "Hk") as (h bd r0) "(%Hbl1 & Hw & HT & Hk)"; [apply dig_range|].
      wp_load. iApply ("IH" with "[%] [%] [%] HT"); [lia|lia| |].
      { intros Hn0. rewrite /sub32 /TRIE_TREE_BIT Z.mod_small; simpl; lia. }
      iIntros "HT". rewrite sub_lookup. destruct (decide (dig n key = dig n key)); [|done]. iApply "HΦ".
      iApply trieR_tree. iExists b, (bd ++ r0). iSplit; [iPureIntro; by rewrite -Hbl1|]. iFrame "Hr". iApply ("Hk" with "[] Hw HT"). done.
  Qed.

  Lemma trieR_acc n h ks bl key l : ks !! key = Some l →
    trieR n h ks bl -∗ leafR (hd_p l 0) key l ∗ (leafR (hd_p l 0) key l -∗ trieR n h ks bl).
  Proof.
    iIntros (Hl) "HT". iInduction n as [|n] "IH" forall (h ks bl Hl).
    all: iEval (rewrite trieR_cases) in "HT"; iDestruct "HT" as "[HT|[HT|HT]]".
    1,4: iDestruct "HT" as %(-> & -> & ->); by rewrite lookup_empty in Hl.
    1,3: iDestruct "HT" as (k l0 [-> ->]) "HT"; apply lookup_singleton_Some in Hl as [-> ->]; iDestruct (leafR_hd with "HT") as %->;
      iFrame; iIntros "HT"; by iApply trieR_leaf.
    - iDestruct "HT" as (n' [=]) "_".
    - iDestruct "HT" as (n' [= <-] b bl1 (-> & Hi & Hbl & Hsz)) "[Hr Hk]".
      iDestruct (kids_acc _ _ _ _ _ _ (dig n key) with "Hk") as (h bd r0) "(%Hbl1 & Hw & HT & Hk)"; [apply dig_range|].
      iDestruct ("IH" with "[%] HT") as "[$ HT]".
      { rewrite sub_lookup. destruct (decide _); [|done]. done. }
      iIntros "HL". iApply trieR_tree. iExists b, (bd ++ r0). iSplit; [iPureIntro; by rewrite -Hbl1|]. iFrame "Hr". iApply ("Hk" with "[] Hw [HT HL]"); [done|].
      by iApply "HT".
  Qed.

  (** ** Removal *)
  Lemma trieR_small n n' h ks bl : (size ks ≤ 1)%nat → trieR n h ks bl -∗ ⌜bl = []⌝ ∗ trieR n' h ks [].
  Proof.
    iIntros (Hs) "HT". rewrite trieR_cases. iDestruct "HT" as "[HT|[HT|HT]]".
    - iDestruct "HT" as %(-> & -> & ->). iSplit; [done|]. iApply trieR_null.
    - iDestruct "HT" as (k l0 [-> ->]) "HT". iSplit; [done|]. by iApply trieR_leaf.
    - iDestruct "HT" as (n0 -> b bl1 (-> & Hi & Hbl & Hsz)) "_". lia.
  Qed.

  (** What the scan of the children finds. *)
  Definition scan_ok (dg : Z → Z) (ks : kmapT) (i : Z) (r : option (Z * Z)) : Prop :=
    match r with
    | None => (2 ≤ size ks)%nat
    | Some (c, la) =>
        (c = 0 ∧ (∀ k, is_Some (ks !! k) → 0 ≤ dg k < i → False)) ∨
        (c = 1 ∧ 0 ≤ la < i ∧ (∃ k, is_Some (ks !! k) ∧ dg k = la ∧ ∀ k', is_Some (ks !! k') → 0 ≤ dg k' < i → k' = k))
    end.

  Lemma wp_scan n dg b ks hf bf m i c la Φ : 0 ≤ i → i + Z.of_nat m = 8 → scan_ok dg ks i (Some (c, la)) →
    ([∗ list] j ∈ seq 0 8, kid dg (trieR n) b ks hf bf j) -∗
    (∀ r, ⌜scan_ok dg ks 8 r⌝ -∗ ([∗ list] j ∈ seq 0 8, kid dg (trieR n) b ks hf bf j) -∗ Φ r) -∗
    wp (trie_scan m b i c la) Φ.
  Proof.
    iIntros (Hi Him Hok) "H HΦ". iInduction m as [|m] "IH" forall (i c la Hi Him Hok); cbn [trie_scan].
    - assert (i = 8) as -> by lia. wp_ret. by iApply "HΦ".
    - remember (Z.to_nat i) as d eqn:Hd. assert (i = Z.of_nat d) as -> by lia.
      iDestruct (big_sepL_lookup_acc _ _ d d with "H") as "[[Hw HT] H]"; [apply lookup_seq; lia|].
      wp_load. rewrite trieR_cases. iDestruct "HT" as "[HT|[HT|HT]]".
      + iDestruct "HT" as %(Hh & Hks & Hb). wp_if. iApply ("IH" with "[%] [%] [%] [Hw H] HΦ"); [lia|lia| |].
        * assert (Hno : ∀ k, is_Some (ks !! k) → dg k = Z.of_nat d → False).
          { intros k [l Hk] Hdk. assert (Hs : sub dg (Z.of_nat d) ks !! k = Some l) by (rewrite sub_lookup decide_True //). by rewrite Hks lookup_empty in Hs. }
          destruct Hok as [[-> Hok]|(-> & Hla & k & Hk & Hdk & Hok)]; [left|right].
          -- split; [done|]. intros k Hk Hr. destruct (decide (dg k = Z.of_nat d)); [eauto|]. apply (Hok k Hk). lia.
          -- split; [done|]. split; [lia|]. exists k. split; [done|]. split; [done|]. intros k' Hk' Hr.
             destruct (decide (dg k' = Z.of_nat d)); [exfalso; eauto|]. apply (Hok k' Hk'). lia.
        * iApply "H". rewrite /kid Hh. iFrame. rewrite Hks Hb. iApply trieR_null.
      + iDestruct "HT" as (k l [Hks Hb]) "HT". iDestruct (leafR_head with "HT") as %[Hh Hm]. wp_if. rewrite type_even //. wp_if.
        iAssert ([∗ list] j ∈ seq 0 8, kid dg (trieR n) b ks hf bf j)%I with "[Hw H HT]" as "H".
        { iApply "H". rewrite /kid. iFrame. rewrite Hks Hb. by iApply trieR_leaf. }
        assert (Hk : is_Some (ks !! k) ∧ dg k = Z.of_nat d).
        { assert (Hs : sub dg (Z.of_nat d) ks !! k = Some l) by (rewrite Hks lookup_singleton //). rewrite sub_lookup in Hs.
          destruct (decide (dg k = Z.of_nat d)); [|done]. split; [by eexists|done]. }
        assert (Hun : ∀ k', is_Some (ks !! k') → dg k' = Z.of_nat d → k' = k).
        { intros k' [l' Hk'] Hdk'. assert (Hs : sub dg (Z.of_nat d) ks !! k' = Some l') by (rewrite sub_lookup decide_True //).
          rewrite Hks in Hs. by apply lookup_singleton_Some in Hs as [-> _]. }
        destruct Hok as [[-> Hok]|(-> & Hla & k0 & Hk0 & Hdk0 & Hok)].
        * wp_if. iApply ("IH" with "[%] [%] [%] H HΦ"); [lia|lia|]. right. split; [done|]. split; [lia|]. exists k. split; [apply Hk|].
          split; [apply Hk|]. intros k' Hk' Hr. destruct (decide (dg k' = Z.of_nat d)); [eauto|]. exfalso. apply (Hok k' Hk'). lia.
        * wp_if. wp_ret. iApply ("HΦ" with "[%] H"). simpl. apply (size_two _ k k0); [|apply Hk|apply Hk0]. intros ->. destruct Hk. lia.
      + iDestruct "HT" as (n' -> b' bl1 (Hh & Hok' & Hbl & Hsz)) "[Hr Hk]". destruct Hok' as (Ho1 & Ho2 & Ho3). wp_if. rewrite Hh type_odd; [|done]. wp_if.
        wp_ret. iApply ("HΦ" with "[%] [-]"). { simpl. etrans; [exact Hsz|]. apply size_sub. }
        iApply "H". rewrite /kid Hh. iFrame "Hw". iApply trieR_tree. iExists b', bl1. by iFrame.
  Qed.

  (** The children of a block that is no longer needed. *)
  Lemma kids_collapse n dg b ks hf bf la : (∀ k, is_Some (ks !! k) → dg k = la) → 0 ≤ la < 8 → (size ks ≤ 1)%nat →
    ([∗ list] j ∈ seq 0 8, kid dg (trieR n) b ks hf bf j) -∗
    ⌜seq 0 8 ≫= bf = []⌝ ∗ (b + 8 * la) ↦ W (hf (Z.to_nat la)) ∗
    ((b + 8 * la) ↦ W (hf (Z.to_nat la)) -∗ words8 b) ∗ ∀ n', trieR n' (hf (Z.to_nat la)) ks [].
  Proof.
    iIntros (Hks Hla Hs) "H".
    iAssert ([∗ list] j ∈ seq 0 8, ((b + 8 * Z.of_nat j) ↦ W (hf j) ∗ ⌜bf j = []⌝) ∗ trieR n (hf j) (sub dg (Z.of_nat j) ks) [])%I with "[H]" as "H".
    { iApply (big_sepL_impl with "H"). iIntros "!>" (j j' _) "[$ HT]".
      iDestruct (trieR_small _ n with "HT") as "[$ $]". etrans; [apply size_sub|done]. }
    rewrite big_sepL_sep. iDestruct "H" as "[H HT]". rewrite big_sepL_sep. iDestruct "H" as "[H Hb]".
    iDestruct (big_sepL_pure_1 with "Hb") as %Hb. iSplit.
    { iPureIntro. generalize dependent (seq 0 8). intros l Hb. induction l as [|j l IH]; [done|]. csimpl. rewrite (Hb 0%nat j); [|done].
      rewrite IH //. intros i j' Hi. by apply (Hb (S i)). }
    remember (Z.to_nat la) as d eqn:Hd. assert (la = Z.of_nat d) as -> by lia.
    iDestruct (big_sepL_lookup _ _ d d with "HT") as "HT"; [apply lookup_seq; lia|].
    iDestruct (big_sepL_lookup_acc _ _ d d with "H") as "[$ H]"; [apply lookup_seq; lia|]. iSplitL "H".
    - iIntros "Hw". iSpecialize ("H" with "Hw"). rewrite /words8 /wcells big_sepL_fmap. iApply (big_sepL_impl with "H").
      iIntros "!>" (j j' _) "H". iExists _. by iFrame.
    - iIntros (n'). rewrite (sub_all dg _ ks) //. by iDestruct (trieR_small _ n' with "HT") as "[_ $]".
  Qed.

  Lemma trie_remove_unfold fuel t nc shift lp remove key path :
    trie_bucket_remove_existing fuel t nc shift lp remove key path =
    (ptr ← load lp;
    if decide (ptr = null) then mret (0, (t, nc))
    else if decide (trie_get_type ptr = 1) then
      let tree := trie_get_tree ptr in
      massert (bool_decide (Z.of_nat (length path) < TRIE_LEVEL_MAX + 1));;
      d ← trie_digit key shift;
      match fuel with
      | O => fuel_out
      | S fuel =>
          trie_bucket_remove_existing fuel t nc (sub32 shift TRIE_TREE_BIT) (tree + 8 * d) remove key (lp :: path)
      end
    else
      let node := ptr in
      remove ← (if decide (remove = null) then
                  index ← load (f_index node);
                  mret (if decide (index <> key) then null else node)
                else mret remove);
      if decide (remove = null) then mret (0, (t, nc)) else
      list_remove_existing lp remove;;
      left ← load lp;
      r ← (if decide (left <> null) then mret (t, nc) else trie_reduce path t nc);
      mret (remove, r)).
  Proof. by destruct fuel. Qed.

  Lemma wp_remove_absent n fuel t nc shift lp h ks bl key path Φ : (n ≤ 10)%nat → (n ≤ fuel)%nat → (length path + n ≤ 10)%nat →
    (n ≠ 0%nat → shift = 3 * Z.of_nat (pred n)) → ks !! key = None →
    lp ↦ W h -∗ trieR n h ks bl -∗ (lp ↦ W h -∗ trieR n h ks bl -∗ Φ (0, (t, nc))) -∗
    wp (trie_bucket_remove_existing fuel t nc shift lp 0 key path) Φ.
  Proof.
    iIntros (Hn Hf Hp Hsh Hks) "Hl HT HΦ".
    iInduction n as [|n] "IH" forall (fuel shift lp h ks bl path Φ Hn Hf Hp Hsh Hks).
    all: rewrite trie_remove_unfold; wp_load; iEval (rewrite trieR_cases) in "HT"; iDestruct "HT" as "[HT|[HT|HT]]".
    1,4: iDestruct "HT" as %(-> & -> & ->); wp_if; wp_ret; iApply ("HΦ" with "Hl"); iApply trieR_null.
    1,3: iDestruct "HT" as (k l [-> ->]) "HT"; iDestruct (leafR_head with "HT") as %[Hh Hm];
      wp_if; rewrite type_even //; wp_if; wp_if; iDestruct (leafR_key with "HT") as "[Hk HT]"; wp_load; iSpecialize ("HT" with "Hk"); wp_ret;
      (destruct (decide (k = key)) as [->|Hne]; [by rewrite lookup_singleton in Hks|]);
      rewrite (decide_True (P := k ≠ key)) //; wp_if; wp_ret; iApply ("HΦ" with "Hl"); by iApply trieR_leaf.
    - iDestruct "HT" as (n' [=]) "_".
    - iDestruct "HT" as (n' [= <-] b bl1 (-> & Hi & Hbl & Hsz)) "[Hr Hk]". destruct (tree_set_get _ Hi) as [Hset Hget].
      destruct Hi as (Hi1 & Hi2 & Hi3). wp_if. rewrite type_odd //. wp_if. rewrite Hget Hsh //.
      wp_assert; [apply bool_decide_eq_true; change TRIE_LEVEL_MAX with 9; lia|].
      wp_bind. iApply wp_digit; [simpl; lia|]. destruct fuel as [|fuel]; [lia|].
      iDestruct (kids_acc _ _ _ _ _ _ (dig n key) with "Hk") as (h bd r0) "(%Hbl1 & Hw & HT & Hk)"; [apply dig_range|].
      iApply ("IH" with "[%] [%] [%] [%] [%] Hw HT"); [lia|lia|simpl; lia| | |].
      { intros Hn0. rewrite /sub32 /TRIE_TREE_BIT Z.mod_small; simpl; lia. }
      { rewrite sub_lookup Hks. by destruct (decide _). }
      iIntros "Hw HT". iApply ("HΦ" with "Hl"). iApply trieR_tree. iExists b, (bd ++ r0). iSplit; [iPureIntro; by rewrite -Hbl1|]. iFrame "Hr".
      by iApply ("Hk" with "[] Hw HT").
  Qed.

  Lemma wp_remove_leaf lp h key l1 x l2 Φ : lp ↦ W h -∗ leafR h key (l1 ++ x :: l2) -∗
    (∀ nx pv, lp ↦ W (hd_p (l1 ++ l2) 0) -∗ dseg (l1 ++ l2) (last_p 0 (l1 ++ l2)) 0 -∗
      ⌜Forall (λ x, e_i x = W key ∧ e_p x mod 8 = 0) (l1 ++ l2)⌝ -∗ nodeP x nx pv -∗ Φ (e_d x)) -∗
    wp (list_remove_existing lp (e_p x)) Φ.
  Proof.
    iIntros "Hl [(_ & %HF & ->) HT] HΦ". iApply (wp_list_remove_existing lp x l1 l2 with "[Hl HT]"); [rewrite /lst; iFrame|].
    iIntros (nx pv) "HT Hn". iEval (rewrite /lst) in "HT". iDestruct "HT" as "[Hl HT]". iApply ("HΦ" with "Hl HT [%] Hn"). apply Forall_app in HF as [HF1 HF2]. inversion HF2. by apply Forall_app.
  Qed.

  Lemma upd_size_lt ks key l : is_Some (ks !! key) → (size ks ≤ S (size (upd key l ks)))%nat.
  Proof.
    intros Hk. rewrite -!size_dom. assert (dom ks ⊆ {[key]} ∪ dom (upd key l ks)).
    { intros k Hk'. apply elem_of_dom in Hk'. destruct (decide (k = key)); [set_solver|]. apply elem_of_union_r, elem_of_dom. rewrite upd_lookup decide_False //. }
    etrans; [by apply subseteq_size|]. rewrite size_union_alt size_singleton. apply le_n_S, subseteq_size. set_solver.
  Qed.
  Lemma upd_size_eq ks key l : l ≠ [] → is_Some (ks !! key) → size (upd key l ks) = size ks.
  Proof. intros Hl Hk. rewrite /upd decide_False //. rewrite map_size_insert_Some //. Qed.

  Lemma upd_leaf k l l' : upd k l' {[k := l]} = if decide (l' = []) then ∅ else {[k := l']}.
  Proof. rewrite /upd. destruct (decide (l' = [])); [apply delete_singleton|apply insert_singleton]. Qed.

  Lemma wp_remove_leaf_case n fuel t nc shift lp h key remove path l1 x l2 Φ :
    remove = e_p x ∨ remove = 0 ∧ l1 = [] → 0 < e_p x →
    lp ↦ W h -∗ leafR h key (l1 ++ x :: l2) -∗
    (∀ h' nx pv, lp ↦ W h' -∗ trieR n h' (if decide (l1 ++ l2 = []) then ∅ else {[key := l1 ++ l2]}) [] -∗ nodeP x nx pv -∗
      if decide (l1 ++ l2 = []) then wp (trie_reduce path t nc) (λ r, Φ (e_p x, r)) else Φ (e_p x, (t, nc))) -∗
    wp (trie_bucket_remove_existing fuel t nc shift lp remove key path) Φ.
  Proof.
    iIntros (Hrem Hxp) "Hl HT HΦ". rewrite trie_remove_unfold. wp_load. iDestruct (leafR_head with "HT") as %[Hh Hm].
    iDestruct (leafR_hd with "HT") as %Hhd. wp_if. rewrite type_even //. wp_if. wp_bind.
    iAssert (wp (if decide (remove = null) then index ← load (f_index h); mret (if decide (index ≠ key) then null else h) else mret remove)
      (λ r, ⌜r = e_p x⌝ ∗ leafR h key (l1 ++ x :: l2)))%I with "[HT]" as "HT".
    { destruct Hrem as [->|[-> ->]].
      - wp_if. wp_ret. by iFrame.
      - wp_if. iDestruct (leafR_key with "HT") as "[Hk HT]". wp_load. iSpecialize ("HT" with "Hk"). wp_ret. rewrite decide_False; [|by intros ?]. by iFrame. }
    iApply (wp_wand with "HT"). iIntros (r) "[-> HT]". wp_if. wp_bind. iApply (wp_remove_leaf with "Hl HT").
    iIntros (nx pv) "Hl HT %HF Hn". wp_load. iDestruct (dseg_pos with "HT") as %Hpos.
    destruct (decide (l1 ++ l2 = [])) as [He|He].
    - rewrite He. change (hd_p [] 0) with 0. iApply wp_bind. iApply wp_if_false; [rewrite /null; lia|]. iApply (wp_wand with "[-]"); [|iIntros (r) "H"; wp_ret; iApply "H"].
      iApply ("HΦ" with "Hl [] Hn"). iApply trieR_null.
    - iApply wp_bind. iApply wp_if_true.
      { destruct (l1 ++ l2); [done|]. inversion Hpos; subst. simpl. rewrite /null. lia. }
      wp_ret. wp_ret. iApply ("HΦ" with "Hl [HT] Hn"). iApply trieR_leaf. by iFrame.
  Qed.

  Lemma remove_leaf_done n t used nc lp h key x l1 l2 nx pv path l Φ : 0 ≤ nc < 2 ^ 64 →
    ((∀ t' h' bl' gone nx pv, ⌜[] ≡ₚ gone ++ bl' ∧ (l1 ++ l2 ≠ [] ∨ (2 ≤ size (upd key (l1 ++ l2) {[key := l]}))%nat)⌝ -∗
       allocH t' (used ∖ list_to_set gone) -∗ lp ↦ W h' -∗ trieR n h' (upd key (l1 ++ l2) {[key := l]}) bl' -∗ nodeP x nx pv -∗
       Φ (e_p x, (t', (nc - Z.of_nat (length gone)) mod 2 ^ 64))) ∧
     (∀ t' h' gone nx pv, ⌜[] ≡ₚ gone ∧ l1 ++ l2 = [] ∧ (size (upd key (l1 ++ l2) {[key := l]}) ≤ 1)%nat⌝ -∗
       allocH t' (used ∖ list_to_set gone) -∗ lp ↦ W h' -∗ trieR n h' (upd key (l1 ++ l2) {[key := l]}) [] -∗ nodeP x nx pv -∗
       wp (trie_reduce path t' ((nc - Z.of_nat (length gone)) mod 2 ^ 64)) (λ r, Φ (e_p x, r)))) -∗
    allocH t used -∗ lp ↦ W h -∗ trieR n h (if decide (l1 ++ l2 = []) then ∅ else {[key := l1 ++ l2]}) [] -∗ nodeP x nx pv -∗
    if decide (l1 ++ l2 = []) then wp (trie_reduce path t nc) (λ r, Φ (e_p x, r)) else Φ (e_p x, (t, nc)).
  Proof.
    iIntros (Hnc) "HΦ Ha Hl HT Hn". rewrite !upd_leaf. destruct (decide (l1 ++ l2 = [])) as [He|He].
    - iDestruct "HΦ" as "[_ HΦ]". iSpecialize ("HΦ" $! t h [] nx pv with "[%] [Ha] Hl HT Hn").
      + split; [done|]. split; [done|]. rewrite map_size_empty. lia.
      + iApply (allocH_eq with "Ha"). set_solver.
      + simpl. by rewrite Z.sub_0_r Z.mod_small.
    - iDestruct "HΦ" as "[HΦ _]". iSpecialize ("HΦ" $! t h [] [] nx pv with "[%] [Ha] Hl HT Hn").
      + split; [done|by left].
      + iApply (allocH_eq with "Ha"). set_solver.
      + simpl. by rewrite Z.sub_0_r Z.mod_small.
  Qed.

  Lemma wp_remove_down n fuel t used nc shift lp h ks bl remove key path l1 x l2 Φ : (n ≤ 10)%nat → (n ≤ fuel)%nat → (length path + n ≤ 10)%nat →
    (n ≠ 0%nat → shift = 3 * Z.of_nat (pred n)) → NoDup bl ∧ list_to_set bl ⊆ used → 0 ≤ nc < 2 ^ 64 →
    ks !! key = Some (l1 ++ x :: l2) → remove = e_p x ∨ remove = 0 ∧ l1 = [] → 0 < e_p x →
    allocH t used -∗ lp ↦ W h -∗ trieR n h ks bl -∗
    ((∀ t' h' bl' gone nx pv, ⌜bl ≡ₚ gone ++ bl' ∧ (l1 ++ l2 ≠ [] ∨ (2 ≤ size (upd key (l1 ++ l2) ks))%nat)⌝ -∗
       allocH t' (used ∖ list_to_set gone) -∗ lp ↦ W h' -∗ trieR n h' (upd key (l1 ++ l2) ks) bl' -∗ nodeP x nx pv -∗
       Φ (e_p x, (t', (nc - Z.of_nat (length gone)) mod 2 ^ 64))) ∧
     (∀ t' h' gone nx pv, ⌜bl ≡ₚ gone ∧ l1 ++ l2 = [] ∧ (size (upd key (l1 ++ l2) ks) ≤ 1)%nat⌝ -∗
       allocH t' (used ∖ list_to_set gone) -∗ lp ↦ W h' -∗ trieR n h' (upd key (l1 ++ l2) ks) [] -∗ nodeP x nx pv -∗
       wp (trie_reduce path t' ((nc - Z.of_nat (length gone)) mod 2 ^ 64)) (λ r, Φ (e_p x, r)))) -∗
    wp (trie_bucket_remove_existing fuel t nc shift lp remove key path) Φ.
  Proof.
    iIntros (Hn Hf Hp Hsh Hnd Hnc Hks Hrem Hxp) "Ha Hl HT HΦ".
    iInduction n as [|n] "IH" forall (fuel shift lp h ks bl path Φ Hn Hf Hp Hsh Hnd Hks).
    all: iEval (rewrite trieR_cases) in "HT"; iDestruct "HT" as "[HT|[HT|HT]]".
    1,4: iDestruct "HT" as %(-> & -> & ->); by rewrite lookup_empty in Hks.
    - iDestruct "HT" as (k l [-> ->]) "HT". apply lookup_singleton_Some in Hks as [-> ->].
      iApply (wp_remove_leaf_case 0 with "Hl HT"); [done..|]. iIntros (h' nx pv) "Hl HT Hn".
      iApply (remove_leaf_done with "HΦ Ha Hl HT Hn"). done.
    - iDestruct "HT" as (n' [=]) "_".
    - iDestruct "HT" as (k l [-> ->]) "HT". apply lookup_singleton_Some in Hks as [-> ->].
      iApply (wp_remove_leaf_case (S n) with "Hl HT"); [done..|]. iIntros (h' nx pv) "Hl HT Hn".
      iApply (remove_leaf_done with "HΦ Ha Hl HT Hn"). done.
    - iDestruct "HT" as (n' [= <-] b bl1 (-> & Hi & Hbl & Hsz)) "[Hr Hk]". destruct (tree_set_get _ Hi) as [Hset Hget].
      pose proof Hi as (Hi1 & Hi2 & Hi3). rewrite trie_remove_unfold. wp_load. wp_if. rewrite type_odd //. wp_if. rewrite Hget Hsh //.
      wp_assert; [apply bool_decide_eq_true; change TRIE_LEVEL_MAX with 9; lia|].
      wp_bind. iApply wp_digit; [simpl; lia|]. destruct fuel as [|fuel]; [lia|].
      iDestruct (kids_acc _ _ _ _ _ _ (dig n key) with "Hk") as (h bd r0) "(%Hbl1 & Hw & HT & Hk)"; [apply dig_range|].
      assert (Hup : ∀ l k, dig n k ≠ dig n key → upd key l ks !! k = ks !! k).
      { intros l k Hk. rewrite upd_lookup decide_False //. congruence. }
      destruct Hnd as [Hnd Hsub]. rewrite Hbl Hbl1 in Hnd. rewrite Hbl Hbl1 list_to_set_cons list_to_set_app in Hsub.
      apply NoDup_cons in Hnd as [Hb Hnd]. 
      iApply ("IH" with "[%] [%] [%] [%] [%] [%] Ha Hw HT"); [lia|lia|simpl; lia| |split; [by apply NoDup_app in Hnd as [Hnd _]|set_solver]| |].
      { intros Hn0. rewrite /sub32 /TRIE_TREE_BIT Z.mod_small; simpl; lia. }
      { rewrite sub_lookup Hks. by destruct (decide _). }
      assert (Hsu : upd key (l1 ++ l2) (sub (dig n) (dig n key) ks) = sub (dig n) (dig n key) (upd key (l1 ++ l2) ks)).
      { rewrite sub_upd decide_True //. }
      iSplit.
      + iDestruct "HΦ" as "[HΦ _]". iIntros (t' h' bl' gone nx pv [Hg Hs]) "Ha Hw HT Hn".
        assert (Hs' : (2 ≤ size (upd key (l1 ++ l2) ks))%nat).
        { destruct Hs as [Hs|Hs]; [rewrite upd_size_eq //; by eexists|]. etrans; [exact Hs|]. rewrite Hsu. apply size_sub. }
        iApply ("HΦ" $! _ _ (b :: bl' ++ r0) with "[%] Ha Hl [-Hn] Hn").
        { split; [|by right]. rewrite Hbl Hbl1 Hg. by rewrite -!Permutation_middle assoc. }
        iApply trieR_tree. iExists b, (bl' ++ r0). iSplit; [done|]. iFrame "Hr". iApply ("Hk" with "[%] Hw"); [apply Hup|]. by rewrite -Hsu.
      + iIntros (t' h' gone nx pv (Hg & Hl & Hs)) "Ha Hw HT Hn". cbn [trie_reduce]. wp_load. rewrite Hget.
        iDestruct ("Hk" $! _ (upd key (l1 ++ l2) ks) with "[%] Hw [HT]") as (hf bf Hbf) "Hk"; [apply Hup|by rewrite -Hsu|].
        wp_bind. iApply (wp_scan with "Hk"); [done|done|by left; split; [|intros; lia]|]. iIntros ([[c la]|] Hsc) "Hk".
        * iDestruct "HΦ" as "[_ HΦ]". destruct Hsc as [[-> Hsc]|(-> & Hla & k & Hk & Hkd & Hsc)].
          { exfalso. assert (Hs2 : (2 ≤ S (size (upd key (l1 ++ l2) ks)))%nat) by (etrans; [exact Hsz|]; apply upd_size_lt; by eexists).
            destruct (size_pos_lookup (upd key (l1 ++ l2) ks)) as [k Hk]; [intros He; rewrite He map_size_empty in Hs2; lia|].
            apply (Hsc k Hk), dig_range. }
          assert (Hs1 : (size (upd key (l1 ++ l2) ks) ≤ 1)%nat).
          { rewrite -size_dom. transitivity (size ({[k]} : gset Z)); [|by rewrite size_singleton]. apply subseteq_size. intros k' Hk'%elem_of_dom.
            rewrite (Hsc k'); [set_solver|done|apply dig_range]. }
          wp_assert; [done|].
          iDestruct (kids_collapse with "Hk") as "(%Hbf0 & Hw & Hk & HT)"; [intros k' Hk'; rewrite (Hsc k') //; apply dig_range|done|done|].
          wp_load. wp_store. wp_bind. rewrite Hbf0 /= in Hbf. apply Permutation_nil_r in Hbf as ->.
          rewrite app_nil_r in Hbl1, Hb.
          iApply (wp_free_inner with "Ha [Hk Hw] Hr"); [|by iApply "Hk"|].
          { apply elem_of_difference. split; [set_solver|]. rewrite elem_of_list_to_set -Hg. done. }
          iIntros (t2) "Ha". iSpecialize ("HΦ" $! t2 _ (b :: gone) with "[%] [Ha] Hl HT Hn").
          { split; [by rewrite Hbl Hbl1 Hg|done]. }
          { iApply (allocH_eq with "Ha"). set_solver. }
          replace (sub64 ((nc - Z.of_nat (length gone)) mod 2 ^ 64) 1) with ((nc - Z.of_nat (length (b :: gone))) mod 2 ^ 64); [done|].
          rewrite /sub64 Zminus_mod_idemp_l. f_equal. simpl. lia.
        * iDestruct "HΦ" as "[HΦ _]". wp_ret. iApply ("HΦ" $! _ _ (b :: r0) with "[%] Ha Hl [-Hn] Hn").
          { split; [|by right]. rewrite Hbl Hbl1 Hg. by rewrite Permutation_middle. }
          iApply trieR_tree. iExists b, r0. iSplit; [done|]. iFrame "Hr". iExists hf, bf. by iFrame.
  Qed.
End trie.
