(** * Proofs about the tree with a comparison that is not an order. *)
From Verif Require Export TreeHist TreeAnySpec.
Global Open Scope Z_scope.

Lemma answers_mono K K' f a b : K ⊆ K' → answers K f a b → answers K' f a b.
Proof. intros HK Hr m Hm. apply Hr. by trans K'. Qed.

Section any.
  Context `{!memG}.

  Lemma wp_TC_any tp f l a b Φ : answers memG_frame f a b →
    tp ↦ Tape l -∗ (∀ z, ⌜z = 0 → may_equal f a b⌝ -∗ tp ↦ Tape (l ++ flatd a [b]) -∗ Φ z) -∗ wp (TC tp f a b) Φ.
  Proof.
    rewrite wp_unseal. iIntros (Hg) "Ha HΦ". iIntros (m) "Hm". iDestruct (memI_lookup with "Hm Ha") as %Hl.
    iDestruct (memI_frame with "Hm") as %Hf. destruct (Hg m Hf) as [z Hz]. rewrite /TC /tape_cmp Hl Hz.
    iMod (memI_update with "Hm Ha") as "[$ Ha]". iModIntro. iApply ("HΦ" with "[] Ha").
    iPureIntro. intros ->. by exists m.
  Qed.

  (** The comparison can be called with [k] and the elements of the tree. *)
  Definition aans (f : Z → Z → M Z) (k : Z) (xs : list (Z * Z)) : Prop :=
    ∀ y, y ∈ xs.*2 → answers memG_frame f k y.
  Lemma aans_node f k xs p d ys : aans f k (xs ++ (p, d) :: ys) → aans f k xs ∧ answers memG_frame f k d ∧ aans f k ys.
  Proof. rewrite /aans fmap_app. intros H0. split; [|split]; intros; apply H0; set_solver. Qed.

  Lemma any_search_node tp ff k : ∀ t fuel L Φ, (depth t ≤ fuel)%nat → aans ff k (inorder t) →
    treeR t -∗ tp ↦ Tape L -∗
    (∀ q ys, ⌜(length ys ≤ depth t)%nat ∧ (∀ y, y ∈ ys → y ∈ (inorder t).*2) ∧
        ((∃ e, (q, e) ∈ inorder t ∧ may_equal ff k e ∧ 0 < q) ∨ q = 0)⌝ -∗
       treeR t -∗ tp ↦ Tape (L ++ flatd k ys) -∗ Φ q) -∗
    wp (tree_search_node fuel (TC tp ff) (root t) k) Φ.
  Proof.
    intros t. induction t as [|p d i l IHl r IHr]; intros fuel L Φ Hf Hrd; iIntros "Ht Htp HΦ".
    - destruct fuel; simpl root; cbn [tree_search_node]; wp_if; wp_ret; iApply ("HΦ" $! _ [] with "[] Ht [Htp]");
        [iPureIntro; split; [done|]; split; [set_solver|by right]|by rewrite app_nil_r|
         iPureIntro; split; [done|]; split; [set_solver|by right]|by rewrite app_nil_r].
    - iDestruct (treeR_nonnull with "Ht") as %Hp. simpl in Hf. destruct fuel as [|fuel]; [lia|]. simpl root. cbn [tree_search_node].
      wp_if. iEval (rewrite treeR_node) in "Ht". iDestruct "Ht" as "((_ & Hnx & Hpv & Hd & Hi) & Hl & Hr)". wp_load.
      apply aans_node in Hrd as (Hrd1 & Hrd2 & Hrd3).
      wp_bind. iApply (wp_TC_any with "Htp"); [done|]. iIntros (z Hz) "Htp".
      destruct (decide (z < 0)) as [Hlt|Hge]; [|destruct (decide (z > 0)) as [Hgt|Heq]].
      + wp_load. iApply (IHl with "Hl Htp"); [lia|done|]. iIntros (q ys (Hys & Hin & Hc)) "Hl Htp".
        iApply ("HΦ" $! q (d :: ys) with "[] [-Htp] [Htp]").
        * iPureIntro. simpl. split; [lia|]. rewrite fmap_app fmap_cons /=. split; [set_solver|].
          destruct Hc as [(e & He & Hfe & Hq)| ->]; [left; exists e; split; [set_solver|done]|by right].
        * rewrite treeR_node. iFrame. done.
        * by rewrite -app_assoc.
      + wp_load. iApply (IHr with "Hr Htp"); [lia|done|]. iIntros (q ys (Hys & Hin & Hc)) "Hr Htp".
        iApply ("HΦ" $! q (d :: ys) with "[] [-Htp] [Htp]").
        * iPureIntro. simpl. split; [lia|]. rewrite fmap_app fmap_cons /=. split; [set_solver|].
          destruct Hc as [(e & He & Hfe & Hq)| ->]; [left; exists e; split; [set_solver|done]|by right].
        * rewrite treeR_node. iFrame. done.
        * by rewrite -app_assoc.
      + wp_ret. iApply ("HΦ" $! p [d] with "[] [-Htp] Htp").
        * iPureIntro. simpl. split; [lia|]. rewrite fmap_app fmap_cons /=. split; [set_solver|].
          left. exists d. split; [set_solver|]. split; [apply Hz; lia|done].
        * rewrite treeR_node. iFrame. done.
  Qed.

  Lemma any_insert_node tp ff bf n p d : ∀ t fuel L Φ, avl t → fits bf n →
    (S (length (inorder t)) ≤ n)%nat → (depth t ≤ fuel)%nat → aans ff d (inorder t) →
    treeR t -∗ nodeT p d 0 0 0 -∗ tp ↦ Tape L -∗
    (∀ t' q ys k, ⌜(length ys ≤ depth t)%nat ∧ (∀ y, y ∈ ys → y ∈ (inorder t).*2) ∧ avl t'⌝ -∗
       treeR t' -∗ tp ↦ Tape (L ++ flatd d ys) -∗
       ((∃ a b, ⌜q = p ∧ inorder t = a ++ b ∧ inorder t' = a ++ (p, d) :: b⌝) ∨
        (∃ e, ⌜inorder t' = inorder t ∧ (q, e) ∈ inorder t ∧ may_equal ff d e⌝ ∗ nodeT p d 0 0 0)) -∗ Φ (root t', q, k)) -∗
    wp (tree_insert_node_w bf fuel (TC tp ff) (root t) p) Φ.
  Proof.
    intros t. induction t as [|q e i l IHl r IHr]; intros fuel L Φ Ht Hfit Hn Hf Hrd; iIntros "Ht Hp Htp HΦ".
    - iAssert (Φ (p, p, 0)) with "[-]" as "H"; [|destruct fuel; simpl root; cbn [tree_insert_node_w]; wp_if; wp_ret; done].
      iApply ("HΦ" $! (Node p d 0 Leaf Leaf) p [] 0 with "[] [Ht Hp] [Htp]").
      + iPureIntro. split; [done|]. split; [set_solver|]. simpl. split; [done|]. split; [done|]. split; [lia|by right].
      + rewrite treeR_node /=. rewrite !treeR_leaf. iFrame.
      + by rewrite app_nil_r.
      + iLeft. iExists [], []. iPureIntro. done.
    - iDestruct (treeR_nonnull with "Ht") as %Hq. simpl in Hf. destruct fuel as [|fuel]; [lia|]. simpl root. cbn [tree_insert_node_w].
      wp_if. iEval (rewrite treeR_node) in "Ht". iDestruct "Ht" as "((_ & Hnx & Hpv & Hd & Hi) & Hl & Hr)".
      iDestruct "Hp" as "(%Hp & Hpn & Hpp & Hpd & Hpi)". wp_load. wp_load.
      iAssert (nodeT p d 0 0 0) with "[Hpn Hpp Hpd Hpi]" as "Hp"; [iFrame; done|].
      apply aans_node in Hrd as (Hrd1 & Hrd2 & Hrd3).
      wp_bind. iApply (wp_TC_any with "Htp"); [done|]. iIntros (c Hc) "Htp".
      pose proof Ht as Ht0. destruct Ht as (Hal & Har & Hdel & Hidx). simpl in Hn. rewrite app_length /= in Hn.
      destruct (decide (c < 0)) as [Hlt|Hge]; [|destruct (decide (c > 0)) as [Hgt|Heq]].
      + wp_load. wp_bind. iApply (IHl with "Hl Hp Htp"); [done|done|lia|lia|done|].
        iIntros (l' z ys k1 (Hys & Hin & Hl')) "Hl Htp Hcase". cbn [fst snd]. wp_store. wp_bind.
        iAssert ⌜(length (inorder l') ≤ S (length (inorder l)))%nat⌝%I as %Hlen.
        { iDestruct "Hcase" as "[(%a & %b & %Hx)|(%e' & %Hx & _)]"; iPureIntro.
          - destruct Hx as (_ & -> & ->). rewrite !app_length /=. lia.
          - destruct Hx as (-> & _). lia. }
        destruct (avl_fits bf l' n Hl' ltac:(lia) Hfit). destruct (avl_fits bf r n Har ltac:(lia) Hfit).
        iApply (wp_balance_ok_w _ q e i l' r with "[Hnx Hpv Hd Hi] Hl Hr"); [done|done|lia|lia|iFrame; done|].
        iIntros (t' k ((Hit & Ht' & _) & _)) "Ht'". wp_ret. cbn [fst snd].
        iApply ("HΦ" $! t' z (e :: ys) (k1 + k) with "[] Ht' [Htp]").
        * iPureIntro. simpl. split; [lia|]. rewrite fmap_app fmap_cons /=. split; [set_solver|done].
        * by rewrite -app_assoc.
        * iDestruct "Hcase" as "[(%a & %b & %Hx)|(%e' & %Hx & Hp)]"; [iLeft|iRight].
          -- destruct Hx as (-> & Hx1 & Hx2). iExists a, (b ++ (q, e) :: inorder r). iPureIntro.
             split; [done|]. simpl. rewrite Hit Hx1 Hx2 -!app_assoc. done.
          -- destruct Hx as (Hx1 & Hx2 & Hx3). iExists e'. iFrame "Hp". iPureIntro. simpl. rewrite Hit Hx1. split; [done|]. split; [set_solver|done].
      + wp_load. wp_bind. iApply (IHr with "Hr Hp Htp"); [done|done|lia|lia|done|].
        iIntros (r' z ys k1 (Hys & Hin & Hr')) "Hr Htp Hcase". cbn [fst snd]. wp_store. wp_bind.
        iAssert ⌜(length (inorder r') ≤ S (length (inorder r)))%nat⌝%I as %Hlen.
        { iDestruct "Hcase" as "[(%a & %b & %Hx)|(%e' & %Hx & _)]"; iPureIntro.
          - destruct Hx as (_ & -> & ->). rewrite !app_length /=. lia.
          - destruct Hx as (-> & _). lia. }
        destruct (avl_fits bf r' n Hr' ltac:(lia) Hfit). destruct (avl_fits bf l n Hal ltac:(lia) Hfit).
        iApply (wp_balance_ok_w _ q e i l r' with "[Hnx Hpv Hd Hi] Hl Hr"); [done|done|lia|lia|iFrame; done|].
        iIntros (t' k ((Hit & Ht' & _) & _)) "Ht'". wp_ret. cbn [fst snd].
        iApply ("HΦ" $! t' z (e :: ys) (k1 + k) with "[] Ht' [Htp]").
        * iPureIntro. simpl. split; [lia|]. rewrite fmap_app fmap_cons /=. split; [set_solver|done].
        * by rewrite -app_assoc.
        * iDestruct "Hcase" as "[(%a & %b & %Hx)|(%e' & %Hx & Hp)]"; [iLeft|iRight].
          -- destruct Hx as (-> & Hx1 & Hx2). iExists (inorder l ++ (q, e) :: a), b. iPureIntro.
             split; [done|]. simpl. rewrite Hit Hx1 Hx2 -!app_assoc. done.
          -- destruct Hx as (Hx1 & Hx2 & Hx3). iExists e'. iFrame "Hp". iPureIntro. simpl. rewrite Hit Hx1. split; [done|]. split; [set_solver|done].
      + wp_ret. iApply ("HΦ" $! (Node q e i l r) q [e] 0 with "[] [-Htp Hp] Htp [Hp]").
        * iPureIntro. simpl. split; [lia|]. rewrite fmap_app fmap_cons /=. split; [set_solver|done].
        * rewrite treeR_node. iFrame. done.
        * iRight. iExists e. iFrame "Hp". iPureIntro. simpl. split; [done|]. split; [set_solver|apply Hc; lia].
  Qed.

  Lemma any_remove_node tp ff bf n B d found : ∀ t fuel L Φ, avl t → fits bf n → height_bound n B →
    (length (inorder t) ≤ n)%nat → (depth t ≤ fuel)%nat → aans ff d (inorder t) →
    treeR t -∗ tp ↦ Tape L -∗
    (∀ t' q ys k, ⌜(length ys ≤ depth t)%nat ∧ (∀ y, y ∈ ys → y ∈ (inorder t).*2) ∧ avl t'⌝ -∗
       treeR t' -∗ tp ↦ Tape (L ++ flatd d ys) -∗
       ((∃ a e b i nx pv, ⌜inorder t = a ++ (q, e) :: b ∧ inorder t' = a ++ b ∧ may_equal ff d e⌝ ∗ nodeT q e i nx pv) ∨
        ⌜inorder t' = inorder t ∧ q = found⌝) -∗ Φ (root t', q, k)) -∗
    wp (tree_remove_node_w bf fuel (TC tp ff) (root t) d found) Φ.
  Proof.
    intros t. induction t as [|q e i l IHl r IHr]; intros fuel L Φ Ht Hfit HB Hn Hf Hrd; iIntros "Ht Htp HΦ".
    - iAssert (Φ (0, found, 0)) with "[-]" as "H"; [|destruct fuel; simpl root; cbn [tree_remove_node_w]; wp_if; wp_ret; done].
      iApply ("HΦ" $! Leaf found [] 0 with "[] Ht [Htp]").
      + iPureIntro. split; [done|]. split; [set_solver|done].
      + by rewrite app_nil_r.
      + iRight. iPureIntro. done.
    - iDestruct (treeR_nonnull with "Ht") as %Hq. simpl in Hf. destruct fuel as [|fuel]; [lia|]. simpl root. cbn [tree_remove_node_w].
      wp_if. iEval (rewrite treeR_node) in "Ht". iDestruct "Ht" as "((_ & Hnx & Hpv & Hd & Hi) & Hl & Hr)". wp_load.
      apply aans_node in Hrd as (Hrd1 & Hrd2 & Hrd3).
      wp_bind. iApply (wp_TC_any with "Htp"); [done|]. iIntros (c Hc) "Htp".
      destruct Ht as (Hal & Har & Hdel & Hidx). simpl in Hn. rewrite app_length /= in Hn.
      destruct (decide (c < 0)) as [Hlt|Hge]; [|destruct (decide (c > 0)) as [Hgt|Heq]].
      + wp_load. wp_bind. iApply (IHl with "Hl Htp"); [done|done|done|lia|lia|done|].
        iIntros (l' z ys k1 (Hys & Hin & Hl')) "Hl Htp Hcase". cbn [fst snd]. wp_store. wp_bind.
        iAssert ⌜(length (inorder l') ≤ length (inorder l))%nat⌝%I as %Hlen.
        { iDestruct "Hcase" as "[(% & % & % & % & % & % & %Hx & _)|%Hx]"; iPureIntro.
          - destruct Hx as (-> & -> & _). rewrite !app_length /=. lia.
          - destruct Hx as (-> & _). lia. }
        destruct (avl_fits bf l' n Hl' ltac:(lia) Hfit). destruct (avl_fits bf r n Har ltac:(lia) Hfit).
        iApply (wp_balance_ok_w _ q e i l' r with "[Hnx Hpv Hd Hi] Hl Hr"); [done|done|lia|lia|iFrame; done|].
        iIntros (t' k ((Hit & Ht' & _) & _)) "Ht'". wp_ret. cbn [fst snd].
        iApply ("HΦ" $! t' z (e :: ys) (k1 + k) with "[] Ht' [Htp]").
        * iPureIntro. simpl. split; [lia|]. rewrite fmap_app fmap_cons /=. split; [set_solver|done].
        * by rewrite -app_assoc.
        * iDestruct "Hcase" as "[(%a & %e' & %b & %j & %nx & %pv & %Hx & Hz)|%Hx]"; [iLeft|iRight].
          -- destruct Hx as (Hx1 & Hx2 & Hx3). iExists a, e', (b ++ (q, e) :: inorder r), j, nx, pv. iFrame "Hz". iPureIntro.
             simpl. rewrite Hit Hx1 Hx2 -!app_assoc. done.
          -- destruct Hx as (Hx1 & ->). iPureIntro. simpl. rewrite Hit Hx1. done.
      + wp_load. wp_bind. iApply (IHr with "Hr Htp"); [done|done|done|lia|lia|done|].
        iIntros (r' z ys k1 (Hys & Hin & Hr')) "Hr Htp Hcase". cbn [fst snd]. wp_store. wp_bind.
        iAssert ⌜(length (inorder r') ≤ length (inorder r))%nat⌝%I as %Hlen.
        { iDestruct "Hcase" as "[(% & % & % & % & % & % & %Hx & _)|%Hx]"; iPureIntro.
          - destruct Hx as (-> & -> & _). rewrite !app_length /=. lia.
          - destruct Hx as (-> & _). lia. }
        destruct (avl_fits bf r' n Hr' ltac:(lia) Hfit). destruct (avl_fits bf l n Hal ltac:(lia) Hfit).
        iApply (wp_balance_ok_w _ q e i l r' with "[Hnx Hpv Hd Hi] Hl Hr"); [done|done|lia|lia|iFrame; done|].
        iIntros (t' k ((Hit & Ht' & _) & _)) "Ht'". wp_ret. cbn [fst snd].
        iApply ("HΦ" $! t' z (e :: ys) (k1 + k) with "[] Ht' [Htp]").
        * iPureIntro. simpl. split; [lia|]. rewrite fmap_app fmap_cons /=. split; [set_solver|done].
        * by rewrite -app_assoc.
        * iDestruct "Hcase" as "[(%a & %e' & %b & %j & %nx & %pv & %Hx & Hz)|%Hx]"; [iLeft|iRight].
          -- destruct Hx as (Hx1 & Hx2 & Hx3). iExists (inorder l ++ (q, e) :: a), e', b, j, nx, pv. iFrame "Hz". iPureIntro.
             simpl. rewrite Hit Hx1 Hx2 -!app_assoc. done.
          -- destruct Hx as (Hx1 & ->). iPureIntro. simpl. rewrite Hit Hx1. done.
      + wp_load. wp_load. wp_bind. iApply (wp_move_right bf n B with "Hl Hr"); [done|done|done|done|rewrite app_length; lia|lia|].
        iIntros (t' k (Ht' & Hit & _)) "Ht'". wp_ret. cbn [fst snd].
        iApply ("HΦ" $! t' q [e] k with "[] Ht' Htp").
        * iPureIntro. simpl. split; [lia|]. rewrite fmap_app fmap_cons /=. split; [set_solver|done].
        * iLeft. iExists (inorder l), e, (inorder r), i, (root r), (root l). iSplit; [iPureIntro; simpl; rewrite Hit; split; [done|]; split; [done|apply Hc; lia]|].
          iFrame. done.
  Qed.

  Variable om : objmap.
  Variable t : Z.
  Variable D : Z → Prop.
  Variable K : mem.
  Hypothesis Hom : ∃ others m, client_ok 4 om others m.

  Definition anyok (f : Z → Z → M Z) (xs : list (Z * Z)) : Prop :=
    (∀ a b, D a → D b → answers memG_frame f a b) ∧ ∀ x, x ∈ xs.*2 → D x.
  Lemma anyok_aans f xs d : anyok f xs → D d → aans f d xs.
  Proof. intros [H1 H2] Hd y Hy. auto. Qed.
  Lemma anyok_insert f a b p d : anyok f (a ++ b) → D d → anyok f (a ++ (p, d) :: b).
  Proof. intros [H1 H2] Hd. split; [done|]. intros x. rewrite fmap_app in H2. rewrite fmap_app. set_solver. Qed.
  Lemma anyok_remove f a b p d : anyok f (a ++ (p, d) :: b) → anyok f (a ++ b).
  Proof. intros [H1 H2]. split; [done|]. intros x. rewrite fmap_app in H2. rewrite fmap_app. set_solver. Qed.

  Definition AnyR (cs : option treeS) (ox : option ((Z → Z → M Z) * list (Z * Z))) : iProp :=
    match ox with
    | None => ⌜cs = None⌝
    | Some (f, xs) => ∃ T, ⌜cs = Some (TreeS (root T) (TC t f) (Z.of_nat (length xs))) ∧ anyok f xs ∧
        avl T ∧ inorder T = xs⌝ ∗ treeR T ∗ [∗ list] x ∈ xs, rest 4 om x.1
    end.
  Definition ARel (cs : option treeS) (s : anystate) : iProp :=
    pool 4 om (as_free s) ∗ hctl (as_live s) ∗ t ↦ Tape [] ∗ AnyR cs (as_tree s).

  Lemma any_found z T ff d ys cs s o Φ :
    cs = Some (TreeS (root T) (TC t ff) (Z.of_nat (length (inorder T)))) → anyok ff (inorder T) → avl T →
    as_tree s = Some (ff, inorder T) →
    anypost s o (TrFound z (flatd d ys)) s →
    pool 4 om (as_free s) -∗ hctl (as_live s) -∗ t ↦ Tape (flatd d ys) -∗ ([∗ list] x ∈ inorder T, rest 4 om x.1) -∗ treeR T -∗
    (∀ cs' a s', ⌜anypost s o a s'⌝ -∗ ARel cs' s' -∗ Φ (cs', a)) -∗
    wp (l ← tape_take t; mret (cs, TrFound z l)) Φ.
  Proof.
    iIntros (-> Hok Ha Hxs Hp) "Hpool Hc Ht Hr HT HΦ". wp_bind. iApply (wp_tape_take with "Ht"). iIntros "Ht". wp_ret.
    iApply ("HΦ" $! _ _ s with "[]"); [done|]. rewrite /ARel Hxs. iFrame. iExists T. by iFrame.
  Qed.

  Lemma any_step fuel cs s o Φ :
    (size om + 4 ≤ fuel)%nat → K ⊆ memG_frame → anypre om K D s o →
    ARel cs s -∗ (∀ cs' a s', ⌜anypost s o a s'⌝ -∗ ARel cs' s' -∗ Φ (cs', a)) -∗
    wp (trstep fuel t cs o) Φ.
  Proof.
    iIntros (Hf HK Hpre) "(Hpool & Hc & Ht & HT) HΦ". pose proof (om_size4 om Hom) as Hom61.
    assert ((∃ f c, o = TrInit f c) ∨ ∀ f c, o ≠ TrInit f c) as [(f & c & ->)|Hno] by (destruct o; eauto).
    { assert (anyok f []) by (split; [|set_solver]; intros; eapply answers_mono; [|by apply Hpre]; done).
      simpl. wp_ret. iApply ("HΦ" with "[]"); [iPureIntro; done|].
      rewrite /ARel /any_nodes /=. destruct (as_tree s) as [[c' xs]|].
      - iDestruct "HT" as (T (_ & _ & _ & <-)) "[HT Hr]". rewrite treeR_fnodes.
        iFrame "Hc Ht". iDestruct (nodes_give with "HT Hr Hpool") as "$".
        iExists Leaf. iSplit; [iPureIntro|by rewrite treeR_leaf]. done.
      - rewrite right_id_L. iFrame. iExists Leaf. iSplit; [iPureIntro|by rewrite treeR_leaf]. done. }
    assert (Htree : ∃ f xs, as_tree s = Some (f, xs)).
    { destruct o as [f' c'| | | | | | | | | | ]; simpl in Hpre; [by destruct (Hno f' c')|..]; try done;
        try (destruct Hpre as [[? ?] ?]; by eauto); try (destruct Hpre as [[[? ?] ?] _]; by eauto);
        destruct Hpre as (? & ? & ? & _); eauto. }
    destruct Htree as (ff & xs & Hxs). rewrite Hxs. iDestruct "HT" as (T (-> & Hdo & Havl & <-)) "[HT Hr]".
    iDestruct (treeR_size with "HT Hr") as %[Hsz Hnd]. pose proof (depth_length T) as Hdl.
    assert (Hfits : fits fuel (size om + 1)) by (split; lia).
    destruct o as [f' c'|p d|d|p|d|f0 f k| | | |arg| ]; simpl in Hpre.
    - by destruct (Hno f' c').
    - (* insert *)
      iApply (wp_erases _ _ _ (trstep_erase fuel t _ _)). rewrite /trstep_w.
      destruct Hpre as (_ & Hp & HDd). iDestruct (pool_take with "Hpool") as "(Hn & Hrp & Hpool)"; first done.
      rewrite fnode4 /freenode. iDestruct "Hn" as "(%Hp0 & (%n1 & %Hn1 & Hpn) & (%n2 & %Hn2 & Hpp) & (%n3 & %Hn3 & Hpd) & (%n4 & %Hn4 & Hpi))".
      rewrite /tree_insert_w. wp_bind. wp_store. wp_store. wp_store. wp_store. wp_bind. cbn [tr_cmp tr_root tr_count].
      iApply (any_insert_node t ff fuel (size om + 1) p d T with "HT [Hpn Hpp Hpd Hpi] Ht"); [done|done|lia|lia|by apply anyok_aans|iFrame; done|].
      iIntros (T' q ys kw (Hys & Hin & HT')) "HT Ht Hcase".
      iDestruct "Hcase" as "[(%a & %b & %Hx)|(%e & %Hx & Hn)]".
      + destruct Hx as (-> & Hx1 & Hx2). cbn [fst snd].
        iDestruct (treeR_data T' p d with "HT") as "[Hd HT]"; [rewrite Hx2; set_solver|]. wp_load. iDestruct ("HT" with "Hd") as "HT".
        wp_ret. wp_bind. iApply (wp_tape_take with "Ht"). iIntros "Ht". wp_ret.
        iApply ("HΦ" with "[]").
        { iPureIntro. exists ff, (inorder T). eexists _, _. split; [done|]. split; [done|]. split; [by apply few_calls_intro|].
          right. exists a, b. done. }
        rewrite /ARel /=. iFrame "Hpool Hc Ht". iExists T'. iFrame "HT". iSplit.
        * iPureIntro. rewrite decide_True //. rewrite -Hx2. split.
          { f_equal. f_equal. rewrite Hx1 Hx2 !app_length /=. rewrite Hx1 app_length in Hsz. rewrite /add64 Z.mod_small; lia. }
          rewrite Hx2. split; [apply anyok_insert; [by rewrite -Hx1|done]|]. done.
        * rewrite Hx1 !big_sepL_app /=. iDestruct "Hr" as "[$ $]". iFrame.
      + destruct Hx as (Hx1 & Hx2 & Hx3). cbn [fst snd].
        iAssert ⌜q ≠ p⌝%I as %Hqp.
        { iIntros (->). iDestruct (treeR_data T' p e with "HT") as "[Hd HT]"; [by rewrite Hx1|].
          iDestruct "Hn" as "(_ & _ & _ & Hd' & _)". iApply (mapsto_excl with "Hd Hd'"). }
        iDestruct (treeR_data T' q e with "HT") as "[Hd HT]"; [by rewrite Hx1|]. wp_load. iDestruct ("HT" with "Hd") as "HT".
        wp_ret. wp_bind. iApply (wp_tape_take with "Ht"). iIntros "Ht". wp_ret.
        rewrite nodeT_fnode. iDestruct (pool_give 4 with "Hn Hrp Hpool") as "Hpool"; [lia|].
        rewrite difference_union_L (comm_L (∪)) (subseteq_union_1_L {[p]} (as_free s)); [|set_solver].
        iApply ("HΦ" $! _ _ s with "[]").
        { iPureIntro. exists ff, (inorder T). eexists _, _. split; [done|]. split; [done|]. split; [by apply few_calls_intro|].
          left. exists q. done. }
        rewrite /ARel Hxs /=. iFrame "Hpool Hc Ht". iExists T'. rewrite Hx1. iFrame "HT Hr".
        iPureIntro. rewrite decide_False //.
    - (* remove *)
      iApply (wp_erases _ _ _ (trstep_erase fuel t _ _)). rewrite /trstep_w.
      destruct Hpre as [_ HDd]. rewrite /tree_remove_w. wp_bind. wp_bind. cbn [tr_cmp tr_root tr_count].
      iApply (any_remove_node t ff fuel (length (inorder T)) (Z.of_nat (longest (length (inorder T)))) d null T with "HT Ht");
        [done|split; lia|apply longest_height|lia|lia|by apply anyok_aans|].
      iIntros (T' q ys k (Hys & Hin & HT')) "HT Ht Hcase".
      iDestruct "Hcase" as "[(%a & %e & %b & %i & %nx & %pv & %Hx & Hn)|%Hx]".
      + destruct Hx as (Hx1 & Hx2 & Hx3). iDestruct "Hn" as "(%Hq & Hnx & Hpv & Hd & Hi)". cbn [fst snd]. wp_if. wp_load. wp_ret.
        iAssert (nodeT q e i nx pv) with "[Hnx Hpv Hd Hi]" as "Hn"; [iFrame; done|]. rewrite nodeT_fnode.
        wp_bind. iApply (wp_tape_take with "Ht"). iIntros "Ht". wp_ret. cbn [fst snd].
        assert (Hfc : few_calls d (inorder T) (flatd d ys)) by by apply few_calls_intro.
        rewrite Hx1 big_sepL_app /=. iDestruct "Hr" as "(Hr1 & Hr & Hr2)".
        iDestruct (pool_give 4 with "Hn Hr Hpool") as "Hpool"; [lia|].
        iApply ("HΦ" with "[]").
        { iPureIntro. exists ff, (inorder T), e, (flatd d ys). split; [done|]. split; [done|]. split; [done|]. left. exists a, q, b. done. }
        rewrite /ARel /=. iFrame "Hpool Hc Ht". iExists T'. rewrite big_sepL_app. iFrame. iPureIntro.
        replace (sub64 (Z.of_nat (length (a ++ (q, e) :: b))) 1) with (Z.of_nat (length (a ++ b))).
        2:{ rewrite !app_length /=. rewrite Hx1 app_length /= in Hsz. rewrite /sub64 Z.mod_small; lia. }
        split; [done|]. rewrite Hx1 in Hdo. split; [by eapply anyok_remove|]. done.
      + destruct Hx as (Hx1 & ->). cbn [fst snd]. wp_if. wp_ret. wp_bind. iApply (wp_tape_take with "Ht"). iIntros "Ht". wp_ret. cbn [fst snd].
        iApply ("HΦ" $! _ _ s with "[]").
        { iPureIntro. exists ff, (inorder T), 0, (flatd d ys). split; [done|]. split; [done|]. split; [by apply few_calls_intro|]. by right. }
        rewrite /ARel Hxs /=. iFrame "Hpool Hc Ht". iExists T'. rewrite Hx1. iFrame. done.
    - done.
    - (* search *)
      destruct Hpre as [_ HDd]. rewrite /trstep /tree_search. wp_bind. wp_bind. simpl.
      iApply (any_search_node t ff d T fuel with "HT Ht"); [lia|by apply anyok_aans|].
      iIntros (q ys (Hys & Hin & Hcase)) "HT Ht".
      assert (Hfc : few_calls d (inorder T) (flatd d ys)) by by apply few_calls_intro.
      destruct Hcase as [(e & Hqe & He & Hq)| ->].
      + wp_if. iDestruct (treeR_data with "HT") as "[Hd HT]"; first done. wp_load. iDestruct ("HT" with "Hd") as "HT".
        iApply (any_found e T ff d ys _ s (TrSearch d) with "Hpool Hc Ht Hr HT HΦ"); [done|done|done|done|].
        exists ff, (inorder T), e, (flatd d ys). split; [done|]. split; [done|]. split; [done|]. split; [done|]. left. eauto.
      + wp_if. wp_ret. iApply (any_found 0 T ff d ys _ s (TrSearch d) with "Hpool Hc Ht Hr HT HΦ"); [done|done|done|done|].
        exists ff, (inorder T), 0, (flatd d ys). split; [done|]. split; [done|]. split; [done|]. split; [done|]. by right.
    - (* search_compare *)
      destruct Hpre as (c' & xs & Hxs' & Hrd). rewrite Hxs in Hxs'. injection Hxs' as <- <-.
      rewrite /trstep /tree_search_compare. wp_bind. wp_bind. simpl.
      iApply (any_search_node t f0 k T fuel with "HT Ht"); [lia|intros y Hy; eapply answers_mono; [|by apply Hrd]; done|].
      iIntros (q ys (Hys & Hin & Hcase)) "HT Ht".
      assert (Hfc : few_calls k (inorder T) (flatd k ys)) by by apply few_calls_intro.
      destruct Hcase as [(e & Hqe & He & Hq)| ->].
      + wp_if. iDestruct (treeR_data with "HT") as "[Hd HT]"; first done. wp_load. iDestruct ("HT" with "Hd") as "HT".
        iApply (any_found e T ff k ys _ s (TrSearchCompare f0 f k) with "Hpool Hc Ht Hr HT HΦ"); [done|done|done|done|].
        exists ff, (inorder T), e, (flatd k ys). split; [done|]. split; [done|]. split; [done|]. split; [done|]. left. eauto.
      + wp_if. wp_ret. iApply (any_found 0 T ff k ys _ s (TrSearchCompare f0 f k) with "Hpool Hc Ht Hr HT HΦ"); [done|done|done|done|].
        exists ff, (inorder T), 0, (flatd k ys). split; [done|]. split; [done|]. split; [done|]. split; [done|]. by right.
    - (* count *)
      rewrite /trstep. wp_ret. iApply ("HΦ" $! _ _ s with "[]"); [iPureIntro; exists ff, (inorder T); done|].
      rewrite /ARel Hxs. iFrame. iExists T. by iFrame.
    - (* usage *)
      rewrite /trstep. wp_ret. iApply ("HΦ" $! _ _ s with "[]").
      { iPureIntro. exists ff, (inorder T). split; [done|]. split; [|done]. rewrite /tree_memory_usage /tree_count /=. f_equal.
        rewrite /wrap Z.mod_small; lia. }
      rewrite /ARel Hxs. iFrame. iExists T. by iFrame.
    - (* foreach *)
      rewrite /trstep. wp_bind. rewrite /tree_foreach /=.
      pose (I := (λ dn : list (Z * Z), t ↦ Tape dn.*2)%I).
      iApply (wp_foreach_node nodeT I _ (inorder T) T fuel [] [] with "[] HT Ht"); [by rewrite app_nil_r|lia| |].
      { iIntros "!>" (dn p d i nx pv more _) "Ht Hn". iApply (wp_visit with "Ht"). rewrite /I fmap_app. iIntros "$". done. }
      iIntros "Ht HT". wp_bind. iApply (wp_tape_take with "Ht"). iIntros "Ht". wp_ret.
      iApply ("HΦ" $! _ _ s with "[]"); [iPureIntro; exists ff, (inorder T); done|].
      rewrite /ARel Hxs. iFrame. iExists T. by iFrame.
    - (* foreach_arg *)
      rewrite /trstep. wp_bind. rewrite /tree_foreach_arg /=.
      pose (I := (λ dn : list (Z * Z), t ↦ Tape (x ← dn; [arg; x.2]))%I).
      iApply (wp_foreach_node nodeT I _ (inorder T) T fuel [] [] with "[] HT Ht"); [by rewrite app_nil_r|lia| |].
      { iIntros "!>" (dn p d i nx pv more _) "Ht Hn". iApply (wp_visit_arg with "Ht"). rewrite /I bind_app. iIntros "$". done. }
      iIntros "Ht HT". wp_bind. iApply (wp_tape_take with "Ht"). iIntros "Ht". wp_ret.
      iApply ("HΦ" $! _ _ s with "[]"); [iPureIntro; exists ff, (inorder T); done|].
      rewrite /ARel Hxs. iFrame. iExists T. by iFrame.
    - (* foreach with free *)
      destruct Hpre as (c' & xs & Hxs' & HF). rewrite Hxs in Hxs'. injection Hxs' as <- <-.
      rewrite /trstep. wp_bind. rewrite /tree_foreach /=. iApply (wp_tree_foreach_free om t Hom with "HT Hr Hc Ht"); [done|done|]. iIntros "Hc Ht".
      wp_bind. iApply (wp_tape_take with "Ht"). iIntros "Ht". wp_ret.
      iApply ("HΦ" with "[]"); [iPureIntro; exists ff, (inorder T); done|].
      rewrite /ARel /=. iFrame. done.
  Qed.
End any.

Lemma tree_any om K D t live m fuel c :
  tree_start om K t live m → (size om + 4 ≤ fuel)%nat →
  allowed (anypre om K D) anypost (anystate0 om live) c →
  succeeds (run (trstep fuel t) None c m) (λ r m',
    any_end om live r.1 r.2 m' ∧ unchanged_outside (HCTL :: t :: objs_cells om) m m').
Proof.
  intros (Hok & Ht & (h & Hh & <-) & Hap) Hf Ha.
  pose proof (client_adequacy False (run (trstep fuel t) None c) 4 om [HCTL; t] m
    (λ r m', any_end om (hc_live h) r.1 r.2 m') Hok) as Had.
  apply Had.
  { intros a [->|[->|Hin]%elem_of_cons]%elem_of_cons; [eauto..|]. by apply elem_of_nil in Hin. }
  intros HG _ HF. apply separate_frame in Hap. rewrite -HF in Hap. iIntros "(Hc & Htt & _) Hpool".
  iApply (wp_run _ (anypre om K D) anypost (ARel om t D) with "[Hc Htt Hpool]").
  - intros cs s o Φ Hpre. iIntros "HR HΦ". iApply (any_step om t D K with "HR"); [eauto|done|done|done|done].
  - exact Ha.
  - rewrite /ARel /=. iFrame "Hpool". iSplitL "Hc"; [|iSplitL; [|done]].
    + iDestruct "Hc" as (c0 Hc0) "Hc". simplify_eq. iExists (hc_oracle h), (hc_next h). by destruct h.
    + iDestruct "Htt" as (c0 Hc0) "Htt". by simplify_eq.
  - iIntros (cs tr s' Hcor) "(_ & (%o & %n & Hc) & _ & HT)". iIntros (m') "Hm".
    iDestruct (memI_lookup with "Hm Hc") as %Hl. simpl.
    iAssert ⌜match as_tree s' with
      | None => cs = None
      | Some (f, xs) => ∃ st T, cs = Some st ∧ tr_root st = root T ∧ tree_at m' T ∧ inorder T = xs ∧ NoDup xs.*1 ∧
          log_bound (depth T) (length xs) ∧ height_balanced 2 T ∧ tr_count st = Z.of_nat (length xs)
      end⌝%I with "[Hm HT]" as %Htree.
    { destruct (as_tree s') as [[c0 xs]|]; [|done]. iDestruct "HT" as (T (-> & _ & Havl & <-)) "[HT Hr]".
      iDestruct (treeR_size with "HT Hr") as %[Hsz Hnd].
      iDestruct (treeR_at with "Hm HT") as %Hat. iPureIntro. eexists _, T. split; [done|]. split; [done|]. split; [done|]. split; [done|].
      split; [done|]. split; [by apply avl_log|]. split; [by apply avl_height_balanced|done]. }
    iPureIntro. exists s'. split; [done|]. split; [|done]. exists (HeapCtl (as_live s') o n). done.
Qed.
