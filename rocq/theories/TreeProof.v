(** * Proofs about the tree functions. *)
From Verif Require Export TreeBal TreeWork ClientProof.
Global Open Scope Z_scope.

Section tree.
  Context `{!memG}.

  Definition nodeT (p d i nx pv : Z) : iProp :=
    ⌜0 < p⌝ ∗ f_next p ↦ W nx ∗ f_prev p ↦ W pv ∗ f_data p ↦ W d ∗ f_index p ↦ W i.

  Fixpoint treeK (K : Z → Z → Z → Z → Z → iProp) (t : tree) : iProp :=
    match t with
    | Leaf => emp
    | Node p d i l r => K p d i (root r) (root l) ∗ treeK K l ∗ treeK K r
    end.
  Definition treeR : tree → iProp := treeK nodeT.

  Lemma treeR_node p d i l r : treeR (Node p d i l r) ⊣⊢ nodeT p d i (root r) (root l) ∗ treeR l ∗ treeR r.
  Proof. done. Qed.
  Lemma treeR_leaf : treeR Leaf ⊣⊢ emp.
  Proof. done. Qed.
  Local Opaque treeR.

  (** Heights *)
  Lemma wp_tree_height t Φ : small t → treeR t -∗ (treeR t -∗ Φ (idx t)) -∗ wp (tree_height (root t)) Φ.
  Proof.
    iIntros (Hs) "Ht HΦ". rewrite /tree_height. destruct t as [|p d i l r].
    - wp_if. wp_ret. by iApply "HΦ".
    - rewrite treeR_node. iDestruct "Ht" as "((%Hp & Hn & Hv & Hd & Hi) & Hl & Hr)". simpl root. wp_if. wp_load. wp_ret.
      assert (to_ssize i = i) as ->.
      { rewrite /to_ssize. destruct Hs as [_ Hs]. simpl in Hs. destruct (decide (i < 2 ^ 63)); [done|]. lia. }
      simpl. iApply "HΦ". iFrame. done.
  Qed.

  Lemma wp_tree_delta t x Φ : delta t = Some x →
    treeR t -∗ (treeR t -∗ Φ x) -∗ wp (tree_delta (root t)) Φ.
  Proof.
    iIntros (Hd) "Ht HΦ". destruct t as [|p d i l r]; [done|]. cbn [delta] in Hd.
    destruct (decide (small l ∧ small r)) as [[Hl Hr]|]; [|done]. injection Hd as <-.
    rewrite treeR_node. iDestruct "Ht" as "((%Hp & Hn & Hv & Hd & Hi) & Hl & Hr)". simpl root. rewrite /tree_delta.
    wp_load. wp_bind. iApply (wp_tree_height with "Hl"); [done|]. iIntros "Hl".
    wp_load. wp_bind. iApply (wp_tree_height with "Hr"); [done|]. iIntros "Hr".
    wp_assert. { apply bool_decide_eq_true. destruct Hl, Hr. lia. }
    wp_ret. iApply "HΦ". iFrame. done.
  Qed.

  Lemma wp_index_max p i t Φ : 0 ≤ i →
    f_index p ↦ W i -∗ treeR t -∗ (f_index p ↦ W (Z.max i (idx t)) -∗ treeR t -∗ Φ tt) -∗
    wp (tree_index_max p (root t)) Φ.
  Proof.
    iIntros (Hs) "Hi Ht HΦ". rewrite /tree_index_max. destruct t as [|q e j l r].
    - wp_if. wp_ret. simpl idx. rewrite Z.max_l; [|done]. iApply ("HΦ" with "Hi Ht").
    - rewrite treeR_node. iDestruct "Ht" as "((%Hq & Hn & Hv & Hd & Hj) & Hl & Hr)". simpl root. wp_if. wp_load. wp_load.
      simpl idx.
      destruct (decide (j > i)).
      + wp_store. rewrite Z.max_r; [|lia]. iApply ("HΦ" with "Hi"). iFrame. done.
      + wp_ret. rewrite Z.max_l; [|lia]. iApply ("HΦ" with "Hi"). iFrame. done.
  Qed.

  (** Forgetting the number of calls *)
  Lemma wp_erases {A} (c : M A) cw Φ : erases c cw → wp cw (λ x, Φ x.1) -∗ wp c Φ.
  Proof.
    rewrite wp_unseal. iIntros (He) "H". iIntros (m) "Hm". iMod ("H" with "Hm") as "H". rewrite (He m) /mbind /M_bind.
    destruct (cw m) as [[x n] m'| | |]; done.
  Qed.

  (** Rebalancing does in memory what [bal] does on trees, with the same number
      of calls. *)
  Definition does (f : Z → M (Z * Z)) (g : tree → option (tree * Z)) : Prop :=
    ∀ t t' n Φ, g t = Some (t', n) → treeR t -∗ (treeR t' -∗ Φ (root t', n)) -∗ wp (f (root t)) Φ.

  Lemma wp_rotl f g : does f g → does (tree_rotate_left_w f) (rotl g).
  Proof.
    intros Hfg t t' n Φ Hg. iIntros "Ht HΦ". destruct t as [|p d i l [|q e j rl rr]]; try done. cbn [rotl] in Hg.
    apply bind_Some in Hg as ([t1 n1] & Hg1 & ([t2 n2] & Hg2 & [= <- <-])%bind_Some). cbn [fst snd] in *. rewrite !treeR_node.
    iDestruct "Ht" as "((%Hp & Hn & Hv & Hd & Hi) & Hl & (%Hq & Hqn & Hqv & Hqd & Hqi) & Hrl & Hrr)". simpl root.
    rewrite /tree_rotate_left_w. wp_load. wp_load. wp_store. wp_bind.
    iApply (Hfg (Node p d i l rl) with "[Hn Hv Hd Hi Hl Hrl]"); [exact Hg1|rewrite treeR_node; iFrame; done|].
    iIntros "Ht1". cbn [fst snd]. wp_store. wp_bind. iApply (Hfg (Node q e j t1 rr) with "[-HΦ]"); [exact Hg2|rewrite treeR_node; iFrame; done|].
    iIntros "Ht2". wp_ret. iApply ("HΦ" with "Ht2").
  Qed.
  Lemma wp_rotr f g : does f g → does (tree_rotate_right_w f) (rotr g).
  Proof.
    intros Hfg t t' n Φ Hg. iIntros "Ht HΦ". destruct t as [|p d i [|q e j ll lr] r]; try done. cbn [rotr] in Hg.
    apply bind_Some in Hg as ([t1 n1] & Hg1 & ([t2 n2] & Hg2 & [= <- <-])%bind_Some). cbn [fst snd] in *. rewrite !treeR_node.
    iDestruct "Ht" as "((%Hp & Hn & Hv & Hd & Hi) & ((%Hq & Hqn & Hqv & Hqd & Hqi) & Hll & Hlr) & Hr)". simpl root.
    rewrite /tree_rotate_right_w. wp_load. wp_load. wp_store. wp_bind.
    iApply (Hfg (Node p d i lr r) with "[Hn Hv Hd Hi Hr Hlr]"); [exact Hg1|rewrite treeR_node; iFrame; done|].
    iIntros "Ht1". cbn [fst snd]. wp_store. wp_bind. iApply (Hfg (Node q e j ll t1) with "[-HΦ]"); [exact Hg2|rewrite treeR_node; iFrame; done|].
    iIntros "Ht2". wp_ret. iApply ("HΦ" with "Ht2").
  Qed.

  Lemma wp_balance f : does (tree_balance_w f) (bal f).
  Proof.
    induction f as [|f IH]; intros t t' n Φ Hb; [done|]. pose proof (wp_rotl _ _ IH) as Hrl. pose proof (wp_rotr _ _ IH) as Hrr.
    iIntros "Ht HΦ". destruct t as [|p d i l r]; [done|]. cbn [bal bal_step] in Hb. apply bind_Some in Hb as (x & Hx & Hb).
    cbn [tree_balance_w]. wp_bind. iApply (wp_tree_delta with "Ht"); [exact Hx|]. iIntros "Ht".
    cbn [delta] in Hx. destruct (decide (small l ∧ small r)) as [[Hsl Hsr]|]; [|done]. injection Hx as Hx.
    destruct (decide (x < -1)) as [Hx1|Hx1].
    - apply bind_Some in Hb as (y & Hy & Hb). apply bind_Some in Hb as ([r' k] & Hr' & ([t2 n2] & Hb & [= <- <-])%bind_Some). cbn [fst snd] in *.
      rewrite treeR_node. iDestruct "Ht" as "((%Hp & Hn & Hv & Hd & Hi) & Hl & Hr)". simpl root.
      wp_load. wp_bind. iApply (wp_tree_delta with "Hr"); [exact Hy|]. iIntros "Hr". wp_bind.
      iAssert (f_next p ↦ W (root r') -∗ treeR r' -∗ wp (v ← tree_rotate_left_w (tree_balance_w f) p; mret (v.1, 1 + k + v.2)) Φ)%I with "[Hv Hd Hi Hl HΦ]" as "Hcont".
      { iIntros "Hn Hr". wp_bind. iApply (Hrl (Node p d i l r') with "[-HΦ]"); [exact Hb|rewrite treeR_node; iFrame; done|].
        iIntros "Ht". wp_ret. iApply ("HΦ" with "Ht"). }
      destruct (decide (y > 0)).
      + wp_load. wp_bind. iApply (Hrr with "Hr"); [exact Hr'|]. iIntros "Hr". cbn [fst snd]. wp_store. wp_ret. iApply ("Hcont" with "Hn Hr").
      + injection Hr' as <- <-. wp_ret. iApply ("Hcont" with "Hn Hr").
    - destruct (decide (x > 1)) as [Hx2|Hx2].
      + apply bind_Some in Hb as (y & Hy & Hb). apply bind_Some in Hb as ([l' k] & Hl' & ([t2 n2] & Hb & [= <- <-])%bind_Some). cbn [fst snd] in *.
        rewrite treeR_node. iDestruct "Ht" as "((%Hp & Hn & Hv & Hd & Hi) & Hl & Hr)". simpl root.
        wp_load. wp_bind. iApply (wp_tree_delta with "Hl"); [exact Hy|]. iIntros "Hl". wp_bind.
        iAssert (f_prev p ↦ W (root l') -∗ treeR l' -∗ wp (v ← tree_rotate_right_w (tree_balance_w f) p; mret (v.1, 1 + k + v.2)) Φ)%I with "[Hn Hd Hi Hr HΦ]" as "Hcont".
        { iIntros "Hv Hl". wp_bind. iApply (Hrr (Node p d i l' r) with "[-HΦ]"); [exact Hb|rewrite treeR_node; iFrame; done|].
          iIntros "Ht". wp_ret. iApply ("HΦ" with "Ht"). }
        destruct (decide (y < 0)).
        * wp_load. wp_bind. iApply (Hrl with "Hl"); [exact Hl'|]. iIntros "Hl". cbn [fst snd]. wp_store. wp_ret. iApply ("Hcont" with "Hv Hl").
        * injection Hl' as <- <-. wp_ret. iApply ("Hcont" with "Hv Hl").
      + injection Hb as <- <-. iEval (rewrite treeR_node) in "Ht". iDestruct "Ht" as "((%Hp & Hn & Hv & Hd & Hi) & Hl & Hr)". simpl root.
        wp_store. wp_load. wp_bind. iApply (wp_index_max with "Hi Hl"); [done|]. iIntros "Hi Hl".
        wp_load. wp_bind. iApply (wp_index_max with "Hi Hr"); [lia|]. iIntros "Hi Hr".
        wp_load. wp_store. wp_ret. iApply ("HΦ" with "[-]"). rewrite treeR_node. iFrame "Hl Hr". rewrite /nodeT.
        iSplit; [done|]. iFrame. 
        destruct Hsl as [Hsl1 Hsl2], Hsr as [Hsr1 Hsr2]. rewrite (Z.max_r 0); [|lia].
        rewrite /add64 Z.mod_small; [|lia]. rewrite Z.add_comm. done.
  Qed.

  Lemma treeR_nonnull p d i l r : treeR (Node p d i l r) ⊢ ⌜0 < p⌝.
  Proof. rewrite treeR_node. iIntros "((% & _) & _)". done. Qed.

  Lemma wp_balance_ok_w f p d i l r Φ : avl l → avl r → Z.max (idx l) (idx r) < 2 ^ 62 →
    3 + Z.max (idx l) (idx r) ≤ Z.of_nat f →
    nodeT p d i (root r) (root l) -∗ treeR l -∗ treeR r -∗
    (∀ t' n, ⌜balanced l p d r t' ∧ calls (Z.abs (idx l - idx r)) n ∧
       (-1 ≤ idx l - idx r ≤ 1 → idx t' = (1 + Z.max (idx l) (idx r))%Z)⌝ -∗ treeR t' -∗ Φ (root t', n)) -∗
    wp (tree_balance_w f p) Φ.
  Proof.
    iIntros (Hl Hr Hs Hf) "Hn Hl Hr HΦ". destruct (bal_ok f p d i l r Hl Hr Hs Hf) as (t' & n & Hb & Ht').
    iApply (wp_balance f (Node p d i l r) with "[-HΦ]"); [exact Hb| |].
    - rewrite treeR_node. iFrame.
    - iIntros "Ht'". by iApply "HΦ".
  Qed.
  Lemma wp_balance_ok f p d i l r Φ : avl l → avl r → Z.max (idx l) (idx r) < 2 ^ 62 →
    3 + Z.max (idx l) (idx r) ≤ Z.of_nat f →
    nodeT p d i (root r) (root l) -∗ treeR l -∗ treeR r -∗
    (∀ t', ⌜balanced l p d r t'⌝ -∗ treeR t' -∗ Φ (root t')) -∗ wp (tree_balance f p) Φ.
  Proof.
    iIntros (Hl Hr Hs Hf) "Hn Hl Hr HΦ". iApply (wp_erases _ _ _ (balance_erase f p)).
    iApply (wp_balance_ok_w with "Hn Hl Hr"); [done..|]. iIntros (t' n (Hb & _)) "Ht". by iApply "HΦ".
  Qed.

  (** A size that rules out overflows and lack of fuel *)
  Definition fits (bf : nat) (n : nat) : Prop := Z.of_nat n < 2 ^ 62 ∧ (n + 3 ≤ bf)%nat.

  Lemma avl_fits bf t n : avl t → (length (inorder t) ≤ n)%nat → fits bf n → idx t < 2 ^ 62 ∧ 3 + idx t ≤ Z.of_nat bf.
  Proof. intros Ht Hn [H1 H2]. pose proof (avl_size _ Ht). lia. Qed.

  (** A bound for the height of the trees of at most [n] elements *)
  Definition height_bound (n : nat) (B : Z) : Prop := ∀ t, avl t → (length (inorder t) ≤ n)%nat → idx t ≤ B.

  Lemma calls_bound n B l r k : height_bound n B → avl l → avl r →
    (length (inorder l) ≤ n)%nat → (length (inorder r) ≤ n)%nat → calls (Z.abs (idx l - idx r)) k → 0 ≤ k ≤ 16 * B + 1.
  Proof.
    intros HB Hl Hr Hnl Hnr [H1 H2]. pose proof (HB _ Hl Hnl). pose proof (HB _ Hr Hnr).
    pose proof (avl_nonneg _ Hl). pose proof (avl_nonneg _ Hr). lia.
  Qed.

  (** ** move_right *)
  (** Removing the root of a tree whose left side has height [h] and whose
      right side has height [g] makes at least so many calls. *)
  Definition move_lower (h g n : Z) : Prop := h ≤ g + 1 → h * (2 * g - h + 2) ≤ 8 * n.
  Lemma move_lower_step h h' g n k : move_lower h' g n → 0 ≤ h' → h - 2 ≤ h' ≤ h - 1 → g - h + 2 ≤ 2 * k →
    move_lower h g (n + k).
  Proof.
    unfold move_lower. intros Hn H0 Hh Hk HH. specialize (Hn ltac:(lia)).
    assert (h' = h - 1 ∨ h' = h - 2) as [->| ->] by lia.
    - assert ((h - 1) * (2 * g - (h - 1) + 2) = h * (2 * g - h + 2) - 2 * g + 2 * h - 3) by ring. lia.
    - assert ((h - 2) * (2 * g - (h - 2) + 2) = h * (2 * g - h + 2) - 4 * g + 4 * h - 8) by ring. lia.
  Qed.

  Lemma wp_move_right bf n B : ∀ t fuel u Φ, avl t → avl u → fits bf n → height_bound n B →
    (length (inorder t ++ inorder u) ≤ n)%nat → (depth t ≤ fuel)%nat →
    treeR t -∗ treeR u -∗
    (∀ t' k, ⌜avl t' ∧ inorder t' = inorder t ++ inorder u ∧ idx u ≤ idx t' ∧
       0 ≤ k ≤ Z.of_nat (depth t) * (16 * B + 1) ∧ move_lower (idx t) (idx u) k⌝ -∗ treeR t' -∗ Φ (root t', k)) -∗
    wp (tree_move_right_w bf fuel (root t) (root u)) Φ.
  Proof.
    intros t. induction t as [|p d i l _ r IH]; intros fuel u Φ Ht Hu Hfit HB Hn Hf; iIntros "Ht Hu HΦ".
    - destruct fuel; simpl root; cbn [tree_move_right_w]; wp_if; wp_ret;
        (iApply ("HΦ" with "[] Hu"); iPureIntro; split; [done|]; split; [done|]; split; [done|]; split; [simpl; lia|]; unfold move_lower; simpl; lia).
    - iDestruct (treeR_nonnull with "Ht") as %Hp. simpl in Hf. destruct fuel as [|fuel]; [lia|]. simpl root. cbn [tree_move_right_w].
      wp_if. rewrite treeR_node. iDestruct "Ht" as "((_ & Hnx & Hpv & Hd & Hi) & Hl & Hr)". wp_load. wp_bind.
      destruct Ht as (Hl & Hr & Hdel & Hidx). simpl in Hn. rewrite !app_length /= in Hn.
      iApply (IH with "Hr Hu"); [done|done|done|done|rewrite app_length; lia|lia|].
      iIntros (t1 k1 (Ht1 & Hi1 & Hx1 & Hk1 & Hlow)) "Ht1". cbn [fst snd]. wp_store. wp_bind.
      assert (Hn1 : (length (inorder t1) ≤ n)%nat) by (rewrite Hi1 app_length; lia).
      destruct (avl_fits bf l n Hl ltac:(lia) Hfit). destruct (avl_fits bf t1 n Ht1 Hn1 Hfit).
      iApply (wp_balance_ok_w _ p d i l t1 with "[Hnx Hpv Hd Hi] Hl Ht1"); [done|done|lia|lia|iFrame; done|].
      iIntros (t' k ((Hit' & Ht' & Hx') & Hk & _)) "Ht'". wp_ret. cbn [fst snd]. iApply ("HΦ" with "[] Ht'"). iPureIntro.
      pose proof (calls_bound n B l t1 k HB Hl Ht1 ltac:(lia) Hn1 Hk) as Hkb.
      pose proof (avl_nonneg _ Hl). pose proof (avl_nonneg _ Hr). pose proof (avl_nonneg _ Hu).
      split; [done|]. split; [rewrite Hit' Hi1 /= -app_assoc //|]. split; [lia|]. split.
      + cbn [depth]. assert (Z.of_nat (depth r) ≤ Z.of_nat (Nat.max (depth l) (depth r))) by lia. nia.
      + cbn [idx]. destruct Hidx as [->|(-> & -> & ->)].
        * eapply move_lower_step; [exact Hlow|done|lia|]. destruct Hk as [Hk _]. lia.
        * unfold move_lower. lia.
  Qed.

  Definition flatd (d : Z) (ys : list Z) : list Z := ys ≫= λ y, [d; y].
  Definition TC (tp : Z) (f : Z → Z → M Z) : Z → Z → M Z := tape_cmp tp (λ _, f).
  (** The comparison can be called with [k] and the elements of the tree. *)
  Definition treads (f : Z → Z → M Z) (g : Z → Z → Z) (k : Z) (xs : list (Z * Z)) : Prop :=
    ∀ y, y ∈ xs.*2 → reads memG_frame f g k y.
  Lemma treads_node f g k xs p d ys : treads f g k (xs ++ (p, d) :: ys) →
    treads f g k xs ∧ reads memG_frame f g k d ∧ treads f g k ys.
  Proof. rewrite /treads fmap_app. intros H0. split; [|split]; intros; apply H0; set_solver. Qed.
  Lemma wp_TC tp f c l a b Φ : reads memG_frame f c a b →
    tp ↦ Tape l -∗ (tp ↦ Tape (l ++ flatd a [b]) -∗ Φ (c a b)) -∗ wp (TC tp f a b) Φ.
  Proof. iIntros (Hr) "Ht HΦ". by iApply (wp_tape_cmp tp (λ _, f) _ _ _ (λ _, c) with "Ht HΦ"). Qed.

  (** ** search *)
  Definition directed (f : Z → Z → Z) (k : Z) (xs : list (Z * Z)) : Prop :=
    StronglySorted (λ x y, (f k y.2 > 0 → f k x.2 > 0) ∧ (f k x.2 < 0 → f k y.2 < 0)) xs.

  Lemma ssorted_mid {A} (R : A → A → Prop) a x b : StronglySorted R (a ++ x :: b) →
    StronglySorted R a ∧ StronglySorted R b ∧ Forall (λ y, R y x) a ∧ Forall (R x) b.
  Proof.
    induction a as [|y a IH]; simpl; inversion 1 as [|? ? Hs Hf]; subst.
    - split; [constructor|]. done.
    - destruct (IH Hs) as (H1 & H2 & H3 & H4). rewrite Forall_app Forall_cons in Hf. destruct Hf as (Hf1 & Hf2 & Hf3).
      split; [by constructor|]. split; [done|]. split; [by constructor|done].
  Qed.

  Lemma depth_length t : (depth t ≤ length (inorder t))%nat.
  Proof. induction t; simpl; [lia|]. rewrite app_length /=. lia. Qed.

  Lemma wp_search_node tp ff f k : ∀ t fuel L Φ, directed f k (inorder t) → (depth t ≤ fuel)%nat →
    treads ff f k (inorder t) →
    treeR t -∗ tp ↦ Tape L -∗
    (∀ q ys, ⌜(length ys ≤ depth t)%nat ∧ (∀ y, y ∈ ys → y ∈ (inorder t).*2) ∧
        ((∃ e, (q, e) ∈ inorder t ∧ f k e = 0 ∧ 0 < q) ∨ (q = 0 ∧ Forall (λ x, f k x.2 ≠ 0) (inorder t)))⌝ -∗
       treeR t -∗ tp ↦ Tape (L ++ flatd k ys) -∗ Φ q) -∗
    wp (tree_search_node fuel (TC tp ff) (root t) k) Φ.
  Proof.
    intros t. induction t as [|p d i l IHl r IHr]; intros fuel L Φ Hs Hf Hrd; iIntros "Ht Htp HΦ".
    - destruct fuel; simpl root; cbn [tree_search_node]; wp_if; wp_ret; iApply ("HΦ" $! _ [] with "[] Ht [Htp]");
        [iPureIntro; split; [done|]; split; [set_solver|right; split; [done|constructor]]|by rewrite app_nil_r|
         iPureIntro; split; [done|]; split; [set_solver|right; split; [done|constructor]]|by rewrite app_nil_r].
    - iDestruct (treeR_nonnull with "Ht") as %Hp. simpl in Hf. destruct fuel as [|fuel]; [lia|]. simpl root. cbn [tree_search_node].
      wp_if. iEval (rewrite treeR_node) in "Ht". iDestruct "Ht" as "((_ & Hnx & Hpv & Hd & Hi) & Hl & Hr)". wp_load.
      apply treads_node in Hrd as (Hrd1 & Hrd2 & Hrd3).
      wp_bind. iApply (wp_TC _ _ f with "Htp"); [done|]. iIntros "Htp".
      simpl in Hs. apply ssorted_mid in Hs as (Hs1 & Hs2 & Hs3 & Hs4).
      destruct (decide (f k d < 0)) as [Hlt|Hge]; [|destruct (decide (f k d > 0)) as [Hgt|Heq]].
      + wp_load. iApply (IHl with "Hl Htp"); [done|lia|done|]. iIntros (q ys (Hys & Hin & Hc)) "Hl Htp".
        iApply ("HΦ" $! q (d :: ys) with "[] [-Htp] [Htp]").
        * iPureIntro. simpl. split; [lia|]. rewrite fmap_app fmap_cons /=. split; [set_solver|].
          destruct Hc as [(e & He & Hfe & Hq)|[-> Hall]]; [left; exists e; split; [set_solver|done]|]. right. split; [done|].
          rewrite Forall_app Forall_cons /=. split; [done|]. split; [lia|]. eapply Forall_impl; [exact Hs4|]. simpl. intros x [_ Hx]. lia.
        * rewrite treeR_node. iFrame. done.
        * by rewrite -app_assoc.
      + wp_load. iApply (IHr with "Hr Htp"); [done|lia|done|]. iIntros (q ys (Hys & Hin & Hc)) "Hr Htp".
        iApply ("HΦ" $! q (d :: ys) with "[] [-Htp] [Htp]").
        * iPureIntro. simpl. split; [lia|]. rewrite fmap_app fmap_cons /=. split; [set_solver|].
          destruct Hc as [(e & He & Hfe & Hq)|[-> Hall]]; [left; exists e; split; [set_solver|done]|]. right. split; [done|].
          rewrite Forall_app Forall_cons /=. split; [|split; [lia|done]]. eapply Forall_impl; [exact Hs3|]. simpl. intros x [Hx _]. lia.
        * rewrite treeR_node. iFrame. done.
        * by rewrite -app_assoc.
      + wp_ret. iApply ("HΦ" $! p [d] with "[] [-Htp] Htp").
        * iPureIntro. simpl. split; [lia|]. rewrite fmap_app fmap_cons /=. split; [set_solver|].
          left. exists d. split; [set_solver|]. split; [lia|done].
        * rewrite treeR_node. iFrame. done.
  Qed.

  Lemma treeR_data t q e : (q, e) ∈ inorder t → treeR t -∗ f_data q ↦ W e ∗ (f_data q ↦ W e -∗ treeR t).
  Proof.
    induction t as [|p d i l IHl r IHr]; simpl; intros Hin; [by apply elem_of_nil in Hin|].
    iIntros "Ht". iEval (rewrite treeR_node) in "Ht". iDestruct "Ht" as "(Hn & Hl & Hr)".
    apply elem_of_app in Hin as [Hin|[Heq|Hin]%elem_of_cons].
    - iDestruct (IHl Hin with "Hl") as "[$ Hl]". iIntros "H". iDestruct ("Hl" with "H") as "Hl". rewrite treeR_node. iFrame.
    - injection Heq as -> ->. iDestruct "Hn" as "(%Hp & Hnx & Hpv & $ & Hi)". iIntros "H". rewrite treeR_node. iFrame. done.
    - iDestruct (IHr Hin with "Hr") as "[$ Hr]". iIntros "H". iDestruct ("Hr" with "H") as "Hr". rewrite treeR_node. iFrame.
  Qed.

  (** ** insert *)
  Section order.
    Variable c : Z → Z → Z.
    Hypothesis Hc : total_preorder c.
    Lemma cmp_lt_gt x y : c x y < 0 ↔ c y x > 0.
    Proof. destruct Hc as [Ha _]. specialize (Ha x y). lia. Qed.
    Lemma cmp_eq x y : c x y = 0 ↔ c y x = 0.
    Proof. destruct Hc as [Ha _]. specialize (Ha x y). lia. Qed.
    Lemma cmp_lt_le_trans x y z : c x y < 0 → c y z ≤ 0 → c x z < 0.
    Proof.
      intros H1 H2. destruct Hc as [Ha Ht]. assert (Hle : c x z ≤ 0) by (apply (Ht x y z); lia).
      destruct (decide (c x z = 0)) as [H0|]; [|lia]. exfalso. pose proof (Ha x z). pose proof (Ha x y).
      pose proof (Ht y z x H2 ltac:(lia)). lia.
    Qed.
    Lemma cmp_le_lt_trans x y z : c x y ≤ 0 → c y z < 0 → c x z < 0.
    Proof.
      intros H1 H2. destruct Hc as [Ha Ht]. assert (Hle : c x z ≤ 0) by (apply (Ht x y z); lia).
      destruct (decide (c x z = 0)) as [H0|]; [|lia]. exfalso. pose proof (Ha x z). pose proof (Ha y z).
      pose proof (Ht z x y ltac:(lia) H1). lia.
    Qed.

    Lemma increasing_directed d xs : increasing c xs → directed c d xs.
    Proof.
      rewrite /increasing /directed. induction 1 as [|x xs Hs IH Hf]; constructor; [done|].
      eapply Forall_impl; [exact Hf|]. simpl. intros y Hxy. split; intros Hxx.
      - apply cmp_lt_gt. apply cmp_lt_gt in Hxx. eapply cmp_lt_le_trans; [exact Hxy|]. lia.
      - eapply cmp_lt_le_trans; [exact Hxx|]. lia.
    Qed.

    (** Inserting into [a], which becomes [a'], next to [b] *)
    Lemma insert_index (a a' b : tree) i x : 0 ≤ idx a → 0 ≤ idx a' → 0 ≤ idx b →
      -1 ≤ idx a - idx b ≤ 1 → (i = 1 + Z.max (idx a) (idx b) ∨ i = 0 ∧ a = Leaf ∧ b = Leaf) →
      idx a ≤ idx a' ≤ idx a + 1 → (a = Leaf → idx a' = 0) →
      Z.max (idx a') (idx b) ≤ x ≤ Z.max (idx a') (idx b) + 1 →
      (-1 ≤ idx a' - idx b ≤ 1 → x = 1 + Z.max (idx a') (idx b)) →
      i ≤ x ≤ i + 1 ∧ Z.abs (idx a' - idx b) ≤ 2.
    Proof.
      intros Ha Ha' Hb Hd Hi Hx Hleaf Hm Hf.
      destruct Hi as [->|(-> & -> & ->)]; [lia|]. specialize (Hleaf eq_refl). simpl in *. lia.
    Qed.

    Lemma wp_insert_node tp ff bf n p d : ∀ t fuel L Φ, avl t → increasing c (inorder t) → fits bf n →
      (S (length (inorder t)) ≤ n)%nat → (depth t ≤ fuel)%nat → treads ff c d (inorder t) →
      treeR t -∗ nodeT p d 0 0 0 -∗ tp ↦ Tape L -∗
      (∀ t' q ys k, ⌜(length ys ≤ depth t)%nat ∧ (∀ y, y ∈ ys → y ∈ (inorder t).*2) ∧ avl t' ∧
          idx t ≤ idx t' ≤ idx t + 1 ∧ (t = Leaf → idx t' = 0) ∧ 0 ≤ k ≤ 33 * Z.of_nat (depth t)⌝ -∗
         treeR t' -∗ tp ↦ Tape (L ++ flatd d ys) -∗
         ((∃ a b, ⌜q = p ∧ inorder t = a ++ b ∧ inorder t' = a ++ (p, d) :: b ∧
             Forall (λ x, c x.2 d < 0) a ∧ Forall (λ x, c d x.2 < 0) b⌝) ∨
          (∃ e, ⌜inorder t' = inorder t ∧ (q, e) ∈ inorder t ∧ c d e = 0⌝ ∗ nodeT p d 0 0 0)) -∗ Φ (root t', q, k)) -∗
      wp (tree_insert_node_w bf fuel (TC tp ff) (root t) p) Φ.
    Proof.
      intros t. induction t as [|q e i l IHl r IHr]; intros fuel L Φ Ht Hs Hfit Hn Hf Hrd; iIntros "Ht Hp Htp HΦ".
      - iAssert (Φ (p, p, 0)) with "[-]" as "H"; [|destruct fuel; simpl root; cbn [tree_insert_node_w]; wp_if; wp_ret; done].
        iApply ("HΦ" $! (Node p d 0 Leaf Leaf) p [] 0 with "[] [Ht Hp] [Htp]").
        + iPureIntro. split; [done|]. split; [set_solver|]. simpl. split; [|lia]. split; [done|]. split; [done|]. split; [lia|by right].
        + rewrite treeR_node /=. rewrite !treeR_leaf. iFrame.
        + by rewrite app_nil_r.
        + iLeft. iExists [], []. iPureIntro. done.
      - iDestruct (treeR_nonnull with "Ht") as %Hq. simpl in Hf. destruct fuel as [|fuel]; [lia|]. simpl root. cbn [tree_insert_node_w].
        wp_if. iEval (rewrite treeR_node) in "Ht". iDestruct "Ht" as "((_ & Hnx & Hpv & Hd & Hi) & Hl & Hr)".
        iDestruct "Hp" as "(%Hp & Hpn & Hpp & Hpd & Hpi)". wp_load. wp_load.
        iAssert (nodeT p d 0 0 0) with "[Hpn Hpp Hpd Hpi]" as "Hp"; [iFrame; done|].
        apply treads_node in Hrd as (Hrd1 & Hrd2 & Hrd3).
        wp_bind. iApply (wp_TC _ _ c with "Htp"); [done|]. iIntros "Htp".
        simpl in Hs. pose proof Hs as Hs0. apply ssorted_mid in Hs as (Hs1 & Hs2 & Hs3 & Hs4).
        destruct Ht as (Hal & Har & Hdel & Hidx). simpl in Hn. rewrite app_length /= in Hn.
        destruct (decide (c d e < 0)) as [Hlt|Hge]; [|destruct (decide (c d e > 0)) as [Hgt|Heq]].
        + wp_load. wp_bind. iApply (IHl with "Hl Hp Htp"); [done|done|done|lia|lia|done|].
          iIntros (l' z ys k1 (Hys & Hin & Hl' & Hxl & Hleaf & Hk1)) "Hl Htp Hcase". cbn [fst snd]. wp_store. wp_bind.
          iAssert ⌜(length (inorder l') ≤ S (length (inorder l)))%nat⌝%I as %Hlen.
          { iDestruct "Hcase" as "[(%a & %b & %Hx)|(%e' & %Hx & _)]"; iPureIntro.
            - destruct Hx as (_ & -> & -> & _). rewrite !app_length /=. lia.
            - destruct Hx as (-> & _). lia. }
          destruct (avl_fits bf l' n Hl' ltac:(lia) Hfit). destruct (avl_fits bf r n Har ltac:(lia) Hfit).
          iApply (wp_balance_ok_w _ q e i l' r with "[Hnx Hpv Hd Hi] Hl Hr"); [done|done|lia|lia|iFrame; done|].
          iIntros (t' k ((Hit & Ht' & Hx') & [Hk0 Hk] & Hflat)) "Ht'". wp_ret. cbn [fst snd].
          iApply ("HΦ" $! t' z (e :: ys) (k1 + k) with "[] Ht' [Htp]").
          * iPureIntro. simpl. split; [lia|]. rewrite fmap_app fmap_cons /=. split; [set_solver|]. split; [done|].
            destruct (insert_index l l' r i (idx t')) as [Hxa Hxb]; [by apply avl_nonneg|by apply avl_nonneg|by apply avl_nonneg|done|done|done|intros ->; by apply Hleaf|lia|lia|]. split; [done|]. split; [done|]. lia.
          * by rewrite -app_assoc.
          * iDestruct "Hcase" as "[(%a & %b & %Hx)|(%e' & %Hx & Hp)]"; [iLeft|iRight].
            -- destruct Hx as (-> & Hx1 & Hx2 & Ha & Hb). iExists a, (b ++ (q, e) :: inorder r). iPureIntro.
               split; [done|]. simpl. rewrite Hit Hx1 Hx2 -!app_assoc. split; [done|]. split; [done|]. split; [done|].
               rewrite Forall_app Forall_cons /=. split; [done|]. split; [done|].
               eapply Forall_impl; [exact Hs4|]. simpl. intros x Hx. eapply cmp_lt_le_trans; [exact Hlt|lia].
            -- destruct Hx as (Hx1 & Hx2 & Hx3). iExists e'. iFrame "Hp". iPureIntro. simpl. rewrite Hit Hx1. split; [done|]. split; [set_solver|done].
        + wp_load. wp_bind. iApply (IHr with "Hr Hp Htp"); [done|done|done|lia|lia|done|].
          iIntros (r' z ys k1 (Hys & Hin & Hr' & Hxr & Hleaf & Hk1)) "Hr Htp Hcase". cbn [fst snd]. wp_store. wp_bind.
          iAssert ⌜(length (inorder r') ≤ S (length (inorder r)))%nat⌝%I as %Hlen.
          { iDestruct "Hcase" as "[(%a & %b & %Hx)|(%e' & %Hx & _)]"; iPureIntro.
            - destruct Hx as (_ & -> & -> & _). rewrite !app_length /=. lia.
            - destruct Hx as (-> & _). lia. }
          destruct (avl_fits bf r' n Hr' ltac:(lia) Hfit). destruct (avl_fits bf l n Hal ltac:(lia) Hfit).
          iApply (wp_balance_ok_w _ q e i l r' with "[Hnx Hpv Hd Hi] Hl Hr"); [done|done|lia|lia|iFrame; done|].
          iIntros (t' k ((Hit & Ht' & Hx') & [Hk0 Hk] & Hflat)) "Ht'". wp_ret. cbn [fst snd].
          iApply ("HΦ" $! t' z (e :: ys) (k1 + k) with "[] Ht' [Htp]").
          * iPureIntro. simpl. split; [lia|]. rewrite fmap_app fmap_cons /=. split; [set_solver|]. split; [done|].
            destruct (insert_index r r' l i (idx t')) as [Hxa Hxb]; [by apply avl_nonneg|by apply avl_nonneg|by apply avl_nonneg|lia|naive_solver lia|done|intros ->; by apply Hleaf|lia|lia|]. split; [done|]. split; [done|]. lia.
          * by rewrite -app_assoc.
          * iDestruct "Hcase" as "[(%a & %b & %Hx)|(%e' & %Hx & Hp)]"; [iLeft|iRight].
            -- destruct Hx as (-> & Hx1 & Hx2 & Ha & Hb). iExists (inorder l ++ (q, e) :: a), b. iPureIntro.
               split; [done|]. simpl. rewrite Hit Hx1 Hx2 -!app_assoc. split; [done|]. split; [done|]. split; [|done].
               assert (Hed : c e d < 0) by (apply cmp_lt_gt; lia).
               rewrite Forall_app Forall_cons /=. split; [|done].
               eapply Forall_impl; [exact Hs3|]. simpl. intros x Hx. eapply cmp_lt_le_trans; [exact Hx|lia].
            -- destruct Hx as (Hx1 & Hx2 & Hx3). iExists e'. iFrame "Hp". iPureIntro. simpl. rewrite Hit Hx1. split; [done|]. split; [set_solver|done].
        + wp_ret. iApply ("HΦ" $! (Node q e i l r) q [e] 0 with "[] [-Htp Hp] Htp [Hp]").
          * iPureIntro. simpl. split; [lia|]. rewrite fmap_app fmap_cons /=. split; [set_solver|]. split; [done|]. split; [lia|]. split; [done|lia].
          * rewrite treeR_node. iFrame. done.
          * iRight. iExists e. iFrame "Hp". iPureIntro. simpl. split; [done|]. split; [set_solver|lia].
    Qed.

    (** ** remove *)
    Lemma wp_remove_node tp ff bf n B d found : ∀ t fuel L Φ, avl t → increasing c (inorder t) → fits bf n → height_bound n B →
      (length (inorder t) ≤ n)%nat → (depth t ≤ fuel)%nat → treads ff c d (inorder t) →
      treeR t -∗ tp ↦ Tape L -∗
      (∀ t' q ys k, ⌜(length ys ≤ depth t)%nat ∧ (∀ y, y ∈ ys → y ∈ (inorder t).*2) ∧ avl t' ∧
          0 ≤ k ≤ Z.of_nat (depth t) * (16 * B + 1) ∧
          match t with Leaf => True | Node _ e i _ _ => c d e = 0 → 2 ≤ i → (i - 2) * (i - 2) ≤ 8 * k end⌝ -∗
         treeR t' -∗ tp ↦ Tape (L ++ flatd d ys) -∗
         ((∃ a e b i nx pv, ⌜inorder t = a ++ (q, e) :: b ∧ inorder t' = a ++ b ∧ c d e = 0⌝ ∗ nodeT q e i nx pv) ∨
          ⌜inorder t' = inorder t ∧ q = found ∧ Forall (λ x, c d x.2 ≠ 0) (inorder t)⌝) -∗ Φ (root t', q, k)) -∗
      wp (tree_remove_node_w bf fuel (TC tp ff) (root t) d found) Φ.
    Proof.
      intros t. induction t as [|q e i l IHl r IHr]; intros fuel L Φ Ht Hs Hfit HB Hn Hf Hrd; iIntros "Ht Htp HΦ".
      - iAssert (Φ (0, found, 0)) with "[-]" as "H"; [|destruct fuel; simpl root; cbn [tree_remove_node_w]; wp_if; wp_ret; done].
        iApply ("HΦ" $! Leaf found [] 0 with "[] Ht [Htp]").
        + iPureIntro. split; [done|]. split; [set_solver|]. split; [done|]. split; [simpl; lia|done].
        + by rewrite app_nil_r.
        + iRight. iPureIntro. split; [done|]. split; [done|constructor].
      - iDestruct (treeR_nonnull with "Ht") as %Hq. simpl in Hf. destruct fuel as [|fuel]; [lia|]. simpl root. cbn [tree_remove_node_w].
        wp_if. iEval (rewrite treeR_node) in "Ht". iDestruct "Ht" as "((_ & Hnx & Hpv & Hd & Hi) & Hl & Hr)". wp_load.
        apply treads_node in Hrd as (Hrd1 & Hrd2 & Hrd3).
        wp_bind. iApply (wp_TC _ _ c with "Htp"); [done|]. iIntros "Htp".
        simpl in Hs. apply ssorted_mid in Hs as (Hs1 & Hs2 & Hs3 & Hs4).
        destruct Ht as (Hal & Har & Hdel & Hidx). simpl in Hn. rewrite app_length /= in Hn.
        destruct (decide (c d e < 0)) as [Hlt|Hge]; [|destruct (decide (c d e > 0)) as [Hgt|Heq]].
        + wp_load. wp_bind. iApply (IHl with "Hl Htp"); [done|done|done|done|lia|lia|done|].
          iIntros (l' z ys k1 (Hys & Hin & Hl' & Hk1 & _)) "Hl Htp Hcase". cbn [fst snd]. wp_store. wp_bind.
          iAssert ⌜(length (inorder l') ≤ length (inorder l))%nat⌝%I as %Hlen.
          { iDestruct "Hcase" as "[(% & % & % & % & % & % & %Hx & _)|%Hx]"; iPureIntro.
            - destruct Hx as (-> & -> & _). rewrite !app_length /=. lia.
            - destruct Hx as (-> & _). lia. }
          destruct (avl_fits bf l' n Hl' ltac:(lia) Hfit). destruct (avl_fits bf r n Har ltac:(lia) Hfit).
          iApply (wp_balance_ok_w _ q e i l' r with "[Hnx Hpv Hd Hi] Hl Hr"); [done|done|lia|lia|iFrame; done|].
          iIntros (t' k ((Hit & Ht' & _) & Hk & _)) "Ht'". wp_ret. cbn [fst snd].
          iApply ("HΦ" $! t' z (e :: ys) (k1 + k) with "[] Ht' [Htp]").
          * iPureIntro. simpl. split; [lia|]. rewrite fmap_app fmap_cons /=. split; [set_solver|]. split; [done|].
            apply calls_bound with (n:=n) (B:=B) in Hk; [|done|done|done|lia|lia]. split; [nia|lia].
          * by rewrite -app_assoc.
          * iDestruct "Hcase" as "[(%a & %e' & %b & %j & %nx & %pv & %Hx & Hz)|%Hx]"; [iLeft|iRight].
            -- destruct Hx as (Hx1 & Hx2 & Hx3). iExists a, e', (b ++ (q, e) :: inorder r), j, nx, pv. iFrame "Hz". iPureIntro.
               simpl. rewrite Hit Hx1 Hx2 -!app_assoc. done.
            -- destruct Hx as (Hx1 & -> & Hx3). iPureIntro. simpl. rewrite Hit Hx1. split; [done|]. split; [done|].
               rewrite Forall_app Forall_cons /=. split; [done|]. split; [lia|].
               eapply Forall_impl; [exact Hs4|]. simpl. intros x Hx. pose proof (cmp_lt_le_trans d e x.2 Hlt). lia.
        + wp_load. wp_bind. iApply (IHr with "Hr Htp"); [done|done|done|done|lia|lia|done|].
          iIntros (r' z ys k1 (Hys & Hin & Hr' & Hk1 & _)) "Hr Htp Hcase". cbn [fst snd]. wp_store. wp_bind.
          iAssert ⌜(length (inorder r') ≤ length (inorder r))%nat⌝%I as %Hlen.
          { iDestruct "Hcase" as "[(% & % & % & % & % & % & %Hx & _)|%Hx]"; iPureIntro.
            - destruct Hx as (-> & -> & _). rewrite !app_length /=. lia.
            - destruct Hx as (-> & _). lia. }
          destruct (avl_fits bf r' n Hr' ltac:(lia) Hfit). destruct (avl_fits bf l n Hal ltac:(lia) Hfit).
          iApply (wp_balance_ok_w _ q e i l r' with "[Hnx Hpv Hd Hi] Hl Hr"); [done|done|lia|lia|iFrame; done|].
          iIntros (t' k ((Hit & Ht' & _) & Hk & _)) "Ht'". wp_ret. cbn [fst snd].
          iApply ("HΦ" $! t' z (e :: ys) (k1 + k) with "[] Ht' [Htp]").
          * iPureIntro. simpl. split; [lia|]. rewrite fmap_app fmap_cons /=. split; [set_solver|]. split; [done|].
            apply calls_bound with (n:=n) (B:=B) in Hk; [|done|done|done|lia|lia]. split; [nia|lia].
          * by rewrite -app_assoc.
          * iDestruct "Hcase" as "[(%a & %e' & %b & %j & %nx & %pv & %Hx & Hz)|%Hx]"; [iLeft|iRight].
            -- destruct Hx as (Hx1 & Hx2 & Hx3). iExists (inorder l ++ (q, e) :: a), e', b, j, nx, pv. iFrame "Hz". iPureIntro.
               simpl. rewrite Hit Hx1 Hx2 -!app_assoc. done.
            -- destruct Hx as (Hx1 & -> & Hx3). iPureIntro. simpl. rewrite Hit Hx1. split; [done|]. split; [done|].
               rewrite Forall_app Forall_cons /=. split; [|split; [lia|done]].
               eapply Forall_impl; [exact Hs3|]. simpl. intros x Hx.
               assert (Hed : c e d < 0) by (apply cmp_lt_gt; lia). pose proof (cmp_lt_le_trans x.2 e d Hx ltac:(lia)) as Hxd.
               apply cmp_lt_gt in Hxd. lia.
        + wp_load. wp_load. wp_bind. iApply (wp_move_right bf n B with "Hl Hr"); [done|done|done|done|rewrite app_length; lia|lia|].
          iIntros (t' k (Ht' & Hit & _ & Hk & Hlow)) "Ht'". wp_ret. cbn [fst snd].
          iApply ("HΦ" $! t' q [e] k with "[] Ht' Htp").
          * iPureIntro. simpl. split; [lia|]. rewrite fmap_app fmap_cons /=. split; [set_solver|]. split; [done|].
            pose proof (HB _ Hal ltac:(lia)). pose proof (avl_nonneg _ Hal). pose proof (avl_nonneg _ Har). split; [nia|].
            intros _ Hi2. unfold move_lower in Hlow. specialize (Hlow ltac:(lia)).
            destruct Hidx as [->|(-> & _)]; [|lia]. nia.
          * iLeft. iExists (inorder l), e, (inorder r), i, (root r), (root l). iSplit; [iPureIntro; simpl; rewrite Hit; split; [done|]; split; [done|lia]|].
            iFrame. done.
    Qed.
  End order.

  (** ** foreach *)
  Lemma wp_foreach_node (K : Z → Z → Z → Z → Z → iProp) (I : list (Z * Z) → iProp) func all : ∀ t fuel dn more Φ,
    all = dn ++ inorder t ++ more → (depth t ≤ fuel)%nat →
    □ (∀ dn p d i nx pv more, ⌜all = dn ++ (p, d) :: more⌝ -∗ I dn -∗ nodeT p d i nx pv -∗
         wp (func d) (λ _, I (dn ++ [(p, d)]) ∗ K p d i nx pv)) -∗
    treeR t -∗ I dn -∗ (I (dn ++ inorder t) -∗ treeK K t -∗ Φ tt) -∗
    wp (tree_foreach_node fuel (root t) func) Φ.
  Proof.
    intros t. induction t as [|p d i l IHl r IHr]; intros fuel dn more Φ Hall Hf; iIntros "#Hfn Ht HI HΦ".
    - destruct fuel; simpl root; cbn [tree_foreach_node]; wp_if; wp_ret; (iApply ("HΦ" with "[HI] []"); [by rewrite app_nil_r|done]).
    - iDestruct (treeR_nonnull with "Ht") as %Hp. simpl in Hf. destruct fuel as [|fuel]; [lia|]. simpl root. cbn [tree_foreach_node].
      wp_if. iEval (rewrite treeR_node) in "Ht". iDestruct "Ht" as "((_ & Hnx & Hpv & Hd & Hi) & Hl & Hr)". wp_load.
      wp_bind. iApply (IHl fuel dn ((p, d) :: inorder r ++ more) with "Hfn Hl HI"); [rewrite Hall /= -!app_assoc //|lia|].
      iIntros "HI Hl". wp_load. wp_load. wp_bind.
      iApply (wp_wand with "[HI Hnx Hpv Hd Hi]").
      { iApply ("Hfn" $! _ p d i (root r) (root l) (inorder r ++ more) with "[] HI [Hnx Hpv Hd Hi]"); [|iFrame; done].
        iPureIntro. rewrite Hall /= -!app_assoc //. }
      iIntros (?) "[HI HK]".
      iApply (IHr fuel _ more with "Hfn Hr HI"); [rewrite Hall /= -!app_assoc //|lia|].
      iIntros "HI Hr". iApply ("HΦ" with "[HI]"); [by rewrite /= -!app_assoc|]. simpl. iFrame.
  Qed.
End tree.
