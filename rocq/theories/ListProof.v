(** * Proofs about the list model: representation predicate and WP specs *)
From Verif Require Export Wp List.
Global Open Scope Z_scope.

(** An element in a container: node address, data pointer, index cell. *)
Record elem := El { e_p : Z; e_d : Z; e_i : cell }.

Definition hd_p (xs : list elem) (d : Z) : Z := match xs with [] => d | x :: _ => e_p x end.
Fixpoint last_p (d : Z) (xs : list elem) : Z :=
  match xs with [] => d | x :: xs => last_p (e_p x) xs end.

Lemma hd_p_app xs ys d : hd_p (xs ++ ys) d = hd_p xs (hd_p ys d).
Proof. by destruct xs. Qed.
Lemma last_p_app d xs ys : last_p d (xs ++ ys) = last_p (last_p d xs) ys.
Proof. revert d; induction xs; simpl; auto. Qed.
Lemma last_p_snoc d xs x : last_p d (xs ++ [x]) = e_p x.
Proof. by rewrite last_p_app. Qed.
Lemma last_p_indep d d' xs : xs ≠ [] → last_p d xs = last_p d' xs.
Proof. by destruct xs. Qed.

Section list.
  Context `{!memG}.

  (** One node with its link fields. *)
  Definition nodeP (x : elem) (nx pv : Z) : iProp :=
    ⌜0 < e_p x⌝ ∗ f_next (e_p x) ↦ W nx ∗ f_prev (e_p x) ↦ W pv ∗
    f_data (e_p x) ↦ W (e_d x) ∗ f_index (e_p x) ↦ e_i x.

  (** A node that is in no container: its words are arbitrary. *)
  Definition freenode (p : Z) : iProp :=
    ⌜0 < p⌝ ∗ (∃ c, ⌜wordcell c⌝ ∗ f_next p ↦ c) ∗ (∃ c, ⌜wordcell c⌝ ∗ f_prev p ↦ c) ∗
    (∃ c, ⌜wordcell c⌝ ∗ f_data p ↦ c) ∗ (∃ c, ⌜wordcell c⌝ ∗ f_index p ↦ c).

  (** Same, with known index cell. *)
  Definition freenode_i (p : Z) (ci : cell) : iProp :=
    ⌜0 < p⌝ ∗ (∃ c, ⌜wordcell c⌝ ∗ f_next p ↦ c) ∗ (∃ c, ⌜wordcell c⌝ ∗ f_prev p ↦ c) ∗
    (∃ c, ⌜wordcell c⌝ ∗ f_data p ↦ c) ∗ f_index p ↦ ci.

  (** Doubly linked segment. *)
  Fixpoint dseg (xs : list elem) (pv nx : Z) : iProp :=
    match xs with
    | [] => emp
    | x :: xs => nodeP x (hd_p xs nx) pv ∗ dseg xs (e_p x) nx
    end.

  Lemma dseg_app xs ys pv nx :
    dseg (xs ++ ys) pv nx ⊣⊢ dseg xs pv (hd_p ys nx) ∗ dseg ys (last_p pv xs) nx.
  Proof.
    revert pv. induction xs as [|x xs IH]; intros pv; simpl.
    - by rewrite left_id.
    - rewrite IH hd_p_app. by rewrite assoc.
  Qed.
  Lemma dseg_cons x xs pv nx :
    dseg (x :: xs) pv nx ⊣⊢ nodeP x (hd_p xs nx) pv ∗ dseg xs (e_p x) nx.
  Proof. done. Qed.
  Lemma dseg_snoc x xs pv nx :
    dseg (xs ++ [x]) pv nx ⊣⊢ dseg xs pv (e_p x) ∗ nodeP x nx (last_p pv xs).
  Proof. by rewrite dseg_app /= right_id. Qed.

  (** The content of a [tommy_list] whose head is [h]. *)
  Definition lseg (h : Z) (xs : list elem) : iProp :=
    ⌜h = hd_p xs 0⌝ ∗ dseg xs (last_p 0 xs) 0.

  (** A [tommy_list] at address [l]. *)
  Definition lst (l : Z) (xs : list elem) : iProp :=
    l ↦ W (hd_p xs 0) ∗ dseg xs (last_p 0 xs) 0.

  Lemma nodeP_pos x nx pv : nodeP x nx pv -∗ ⌜0 < e_p x⌝.
  Proof. iIntros "($&_)". Qed.

  Lemma dseg_pos xs pv nx : dseg xs pv nx -∗ ⌜Forall (λ x, 0 < e_p x) xs⌝.
  Proof.
    revert pv. induction xs as [|x xs IH]; intros pv; simpl.
    - iIntros "_". done.
    - iIntros "[Hx Hxs]". iDestruct (nodeP_pos with "Hx") as %?.
      iDestruct (IH with "Hxs") as %?. iPureIntro. by constructor.
  Qed.

  Lemma nodeP_excl x y nx pv nx' pv' : nodeP x nx pv -∗ nodeP y nx' pv' -∗ ⌜e_p x ≠ e_p y⌝.
  Proof.
    iIntros "(_&H1&_) (_&H2&_)". by iDestruct (mapsto_ne with "H1 H2") as %?.
  Qed.
  Lemma nodeP_dseg_excl x nx pv xs pv' nx' :
    nodeP x nx pv -∗ dseg xs pv' nx' -∗ ⌜e_p x ∉ e_p <$> xs⌝.
  Proof.
    iIntros "Hx Hxs". iInduction xs as [|y ys] "IH" forall (pv'); simpl.
    - iPureIntro. apply not_elem_of_nil.
    - iDestruct "Hxs" as "[Hy Hys]".
      iDestruct (nodeP_excl with "Hx Hy") as %?.
      iDestruct ("IH" with "Hx Hys") as %?. iPureIntro.
      by apply not_elem_of_cons.
  Qed.
  Lemma dseg_nodup xs pv nx : dseg xs pv nx -∗ ⌜NoDup (e_p <$> xs)⌝.
  Proof.
    revert pv. induction xs as [|x xs IH]; intros pv; simpl.
    - iIntros "_". iPureIntro. constructor.
    - iIntros "[Hx Hxs]". iDestruct (nodeP_dseg_excl with "Hx Hxs") as %?.
      iDestruct (IH with "Hxs") as %?. iPureIntro. by constructor.
  Qed.
  Lemma freenode_dseg_excl p xs pv nx :
    freenode p -∗ dseg xs pv nx -∗ ⌜p ∉ e_p <$> xs⌝.
  Proof.
    iIntros "(_&(%c&_&Hn)&_) Hxs". iInduction xs as [|y ys] "IH" forall (pv); simpl.
    - iPureIntro. apply not_elem_of_nil.
    - iDestruct "Hxs" as "[(_&Hy&_) Hys]".
      iDestruct (mapsto_ne with "Hn Hy") as %?.
      iDestruct ("IH" with "Hn Hys") as %?. iPureIntro.
      by apply not_elem_of_cons.
  Qed.
  Lemma dseg_dseg_excl xs pv nx ys pv' nx' :
    dseg xs pv nx -∗ dseg ys pv' nx' -∗ ⌜∀ p, p ∈ e_p <$> xs → p ∈ e_p <$> ys → False⌝.
  Proof.
    iIntros "Hx Hy". iInduction xs as [|x xs] "IH" forall (pv); simpl.
    - iPureIntro. intros p Hp. by apply elem_of_nil in Hp.
    - iDestruct "Hx" as "[Hx Hxs]".
      iDestruct (nodeP_dseg_excl with "Hx Hy") as %?.
      iDestruct ("IH" with "Hxs Hy") as %?. iPureIntro.
      intros p [->|Hp]%elem_of_cons ?; eauto.
  Qed.

  Lemma nodeP_freenode x nx pv : wordcell (e_i x) → nodeP x nx pv -∗ freenode (e_p x).
  Proof.
    iIntros (Hi) "($&H1&H2&H3&H4)". iSplitL "H1"; [|iSplitL "H2"; [|iSplitL "H3"]]; iExists _; iFrame; auto.
  Qed.

  Lemma freenode_freenode_i p : freenode p ⊣⊢ ∃ c, ⌜wordcell c⌝ ∗ freenode_i p c.
  Proof.
    iSplit.
    - iIntros "($&$&$&$&(%c&%Hc&H))". iExists c. iFrame. done.
    - iIntros "(%c&%Hc&($&$&$&$&H))". iExists c. iFrame. done.
  Qed.

  (** ** WP specifications *)

  Lemma wp_list_init l c Φ : wordcell c → l ↦ c -∗ (lst l [] -∗ Φ tt) -∗ wp (list_init l) Φ.
  Proof.
    iIntros (Hc) "Hl HΦ". rewrite /list_init. wp_store. iApply "HΦ". rewrite /lst /=. by iFrame.
  Qed.

  Lemma wp_list_head l xs Φ : lst l xs -∗ (lst l xs -∗ Φ (hd_p xs 0)) -∗ wp (list_head l) Φ.
  Proof.
    iIntros "[Hl Hxs] HΦ". rewrite /list_head. wp_load. iApply "HΦ". iFrame.
  Qed.

  Lemma wp_list_tail l xs Φ : lst l xs -∗ (lst l xs -∗ Φ (last_p 0 xs)) -∗ wp (list_tail l) Φ.
  Proof.
    iIntros "[Hl Hxs] HΦ". rewrite /list_tail /list_head. wp_load.
    destruct xs as [|x xs]; simpl.
    - wp_ret. iApply "HΦ". by iFrame.
    - iDestruct "Hxs" as "[(%Hp&Hn&Hv&Hd&Hi) Hxs]".
      rewrite decide_False; [|unfold null; lia]. wp_load. iApply "HΦ". iFrame. done.
  Qed.

  Lemma wp_list_empty l xs Φ :
    lst l xs -∗ (lst l xs -∗ Φ (bool_decide (xs = []))) -∗ wp (list_empty l) Φ.
  Proof.
    iIntros "[Hl Hxs] HΦ". rewrite /list_empty /list_head. wp_load. wp_ret.
    destruct xs as [|x xs].
    - iApply "HΦ". iFrame.
    - iDestruct (dseg_pos with "Hxs") as %Hp. inversion_clear Hp.
      rewrite /= bool_decide_eq_false_2; [|unfold null; lia].
      iApply "HΦ". iFrame.
  Qed.

  (** Access to the two outer links of a non empty segment. *)
  Lemma dseg_ends xs pv nx :
    xs ≠ [] →
    dseg xs pv nx ⊢
      ⌜0 < hd_p xs 0⌝ ∗
      f_prev (hd_p xs 0) ↦ W pv ∗ f_next (last_p 0 xs) ↦ W nx ∗
      (∀ pv' nx', f_prev (hd_p xs 0) ↦ W pv' -∗ f_next (last_p 0 xs) ↦ W nx' -∗ dseg xs pv' nx').
  Proof.
    destruct xs as [|x xs]; [done|intros _].
    destruct xs as [|y ys _] using rev_ind; simpl.
    - iIntros "[(#Hp&H1&$&H3&H4) _]". iFrame "H1 Hp". iIntros (pv' nx') "? ?". by iFrame "# ∗".
    - rewrite last_p_app /=. iIntros "[(#Hp&H1&$&H3&H4) H]". iFrame "Hp".
      rewrite dseg_snoc. iDestruct "H" as "[Hys (#Hp'&$&H)]".
      iIntros (pv' nx') "? ?". rewrite dseg_snoc. rewrite !hd_p_app /=. by iFrame "# ∗".
  Qed.

  Lemma hd_last_indep xs d : xs ≠ [] → hd_p xs d = hd_p xs 0.
  Proof. by destruct xs. Qed.

  Lemma wp_list_insert_tail l node d ci xs Φ :
    freenode_i node ci -∗ lst l xs -∗
    (lst l (xs ++ [El node d ci]) -∗ Φ tt) -∗
    wp (list_insert_tail l node d) Φ.
  Proof.
    iIntros "(%Hp&(%c1&%&Hn)&(%c2&%&Hv)&(%c3&%&Hd)&Hi) [Hl Hxs] HΦ".
    rewrite /list_insert_tail /list_head. wp_load. wp_bind.
    destruct (decide (xs = [])) as [->|Hne]; simpl.
    - rewrite /list_insert_first. wp_store. wp_store. wp_store. wp_store.
      iApply "HΦ". rewrite /lst /=. by iFrame.
    - iDestruct (dseg_ends with "Hxs") as "(%Hhp&Hhp&Htn&Hxs)"; first done.
      wp_if.
      rewrite /list_insert_tail_not_empty.
      wp_load. wp_store. wp_store. wp_store. wp_load. wp_store. wp_store.
      iApply "HΦ". rewrite /lst last_p_snoc hd_p_app hd_last_indep //. iFrame "Hl".
      rewrite dseg_snoc /=. iSplitR "Hn Hv Hd Hi".
      + iApply ("Hxs" with "Hhp Htn").
      + rewrite (last_p_indep _ 0) //. by iFrame.
  Qed.

  Lemma wp_list_insert_head l node d ci xs Φ :
    freenode_i node ci -∗ lst l xs -∗
    (lst l (El node d ci :: xs) -∗ Φ tt) -∗
    wp (list_insert_head l node d) Φ.
  Proof.
    iIntros "(%Hp&(%c1&%&Hn)&(%c2&%&Hv)&(%c3&%&Hd)&Hi) [Hl Hxs] HΦ".
    rewrite /list_insert_head /list_head. wp_load. wp_bind.
    destruct (decide (xs = [])) as [->|Hne]; simpl.
    - rewrite /list_insert_first. wp_store. wp_store. wp_store. wp_store.
      iApply "HΦ". rewrite /lst /=. by iFrame.
    - iDestruct (dseg_ends with "Hxs") as "(%Hhp&Hhp&Htn&Hxs)"; first done.
      wp_if.
      rewrite /list_insert_head_not_empty /list_head.
      wp_load. wp_load. wp_store. wp_store. wp_store. wp_store. wp_store.
      iApply "HΦ". rewrite /lst /= (last_p_indep _ 0) //. iFrame. iSplit; first done.
      iApply ("Hxs" with "Hhp Htn").
  Qed.

  Lemma wp_list_remove_existing l x xs ys Φ :
    lst l (xs ++ x :: ys) -∗
    (∀ nx pv, lst l (xs ++ ys) -∗ nodeP x nx pv -∗ Φ (e_d x)) -∗
    wp (list_remove_existing l (e_p x)) Φ.
  Proof.
    iIntros "[Hl H] HΦ". rewrite dseg_app dseg_cons hd_p_app last_p_app /=.
    iDestruct "H" as "(Hxs & (%Hp&Hn&Hv&Hd&Hi) & Hys)".
    rewrite /list_remove_existing /list_head. wp_load. wp_load.
    destruct (decide (xs = [])) as [->|Hxne]; destruct (decide (ys = [])) as [->|Hyne]; cbn [hd_p last_p app].
    - wp_if. wp_load. wp_store.
      wp_if. wp_load. wp_store. wp_load.
      iApply ("HΦ" with "[Hl]"); rewrite /lst /nodeP /=; by iFrame.
    - iDestruct (dseg_ends with "Hys") as "(%Hhp&Hhp&Htn&Hys)"; first done.
      wp_if. wp_load. wp_store.
      wp_if. wp_load. wp_store. wp_load.
      iApply ("HΦ" with "[Hl Hhp Htn Hys]"); rewrite /lst /nodeP /=; [|by iFrame].
      iFrame. rewrite (last_p_indep _ 0) //. iApply ("Hys" with "Hhp Htn").
    - iDestruct (dseg_ends with "Hxs") as "(%Hhp&Hhp&Htn&Hxs)"; first done.
      rewrite hd_last_indep // (last_p_indep _ 0) //.
      iAssert ⌜hd_p xs 0 ≠ e_p x⌝%I as %Hneq.
      { iIntros (Heq). rewrite Heq. iApply (mapsto_excl with "Hhp Hv"). }
      wp_if. wp_load. wp_store.
      wp_if. wp_load. wp_load. wp_store. wp_load.
      iApply ("HΦ" with "[Hl Hhp Htn Hxs]"); rewrite /lst /nodeP /= ?app_nil_r; [|by iFrame].
      iFrame. iApply ("Hxs" with "Hhp Htn").
    - iDestruct (dseg_ends with "Hxs") as "(%Hhp&Hhp&Htn&Hxs)"; first done.
      iDestruct (dseg_ends with "Hys") as "(%Hhp'&Hhp'&Htn'&Hys)"; first done.
      rewrite !(hd_last_indep xs) // !(last_p_indep _ 0) //.
      iAssert ⌜hd_p xs 0 ≠ e_p x⌝%I as %Hneq.
      { iIntros (Heq). rewrite Heq. iApply (mapsto_excl with "Hhp Hv"). }
      wp_if. wp_load. wp_store.
      wp_if. wp_load. wp_load. wp_store. wp_load.
      iApply ("HΦ" with "[Hl Hhp Htn Hxs Hhp' Htn' Hys]"); rewrite /lst /nodeP /=; [|by iFrame].
      rewrite hd_p_app last_p_app !(hd_last_indep xs) // !(last_p_indep _ 0 ys) //. iFrame.
      rewrite dseg_app. iSplitL "Hhp Htn Hxs".
      + iApply ("Hxs" with "Hhp Htn").
      + rewrite (last_p_indep _ 0 xs) //. iApply ("Hys" with "Hhp' Htn'").
  Qed.

  Lemma wp_list_concat l1 l2 xs ys Φ :
    lst l1 xs -∗ lst l2 ys -∗
    (lst l1 (xs ++ ys) -∗ l2 ↦ W (hd_p ys 0) -∗ Φ tt) -∗
    wp (list_concat l1 l2) Φ.
  Proof.
    iIntros "[Hl1 Hxs] [Hl2 Hys] HΦ". rewrite /list_concat /list_head. wp_load.
    destruct (decide (ys = [])) as [->|Hyne].
    { wp_if. wp_ret. rewrite app_nil_r. iApply ("HΦ" with "[$Hl1 $Hxs] Hl2"). }
    iDestruct (dseg_ends with "Hys") as "(%Hhp'&Hhp'&Htn'&Hys)"; first done.
    wp_if. wp_load.
    destruct (decide (xs = [])) as [->|Hxne].
    { wp_if. wp_load. wp_store. iApply ("HΦ" with "[-Hl2] Hl2"). iFrame.
      iApply ("Hys" with "Hhp' Htn'"). }
    iDestruct (dseg_ends with "Hxs") as "(%Hhp&Hhp&Htn&Hxs)"; first done.
    wp_if.
    wp_load. wp_load. wp_store. wp_store. wp_store.
    iApply ("HΦ" with "[-Hl2] Hl2").
    rewrite /lst hd_p_app last_p_app (hd_last_indep xs) // (last_p_indep _ 0 ys) //. iFrame.
    rewrite dseg_app (last_p_indep _ 0 xs) //. iSplitL "Hhp Htn Hxs".
    + iApply ("Hxs" with "Hhp Htn").
    + iApply ("Hys" with "Hhp' Htn'").
  Qed.

  Lemma wp_list_count_loop fuel xs pv c Φ :
    (length xs <= fuel)%nat →
    dseg xs pv 0 -∗ (dseg xs pv 0 -∗ Φ (if decide (xs = []) then c else wrap (c + Z.of_nat (length xs)))) -∗
    wp (list_count_loop fuel c (hd_p xs 0)) Φ.
  Proof.
    iIntros (Hf) "Hxs HΦ". iInduction fuel as [|fuel] "IH" forall (xs pv c Hf).
    - destruct xs; simpl in *; [|lia]. wp_ret. by iApply "HΦ".
    - destruct xs as [|x xs]; simpl in *.
      + wp_ret. by iApply "HΦ".
      + iDestruct "Hxs" as "[(%Hp&Hn&Hx) Hxs]".
        wp_if. wp_load.
        iApply ("IH" with "[] Hxs"); first (iPureIntro; lia).
        iIntros "Hxs". iSpecialize ("HΦ" with "[Hn Hx Hxs]"); first by iFrame.
        case_decide as Hd.
        * subst. by simpl.
        * by replace (wrap (wrap (c + 1) + Z.of_nat (length xs))) with (wrap (c + Z.of_nat (S (length xs))))
            by (rewrite /wrap Zplus_mod_idemp_l; f_equal; lia).
  Qed.

  Lemma wp_list_count fuel l xs Φ :
    (length xs <= fuel)%nat → Z.of_nat (length xs) < 2 ^ 64 →
    lst l xs -∗ (lst l xs -∗ Φ (Z.of_nat (length xs))) -∗
    wp (list_count fuel l) Φ.
  Proof.
    iIntros (Hf Hlt) "[Hl Hxs] HΦ". rewrite /list_count /list_head. wp_load.
    iApply (wp_list_count_loop with "Hxs"); first done. iIntros "Hxs".
    iSpecialize ("HΦ" with "[$Hl $Hxs]").
    case_decide; [by subst|]. rewrite /wrap Z.mod_small; [done|lia].
  Qed.

  Lemma wp_list_walk fuel xs pv Φ :
    (length xs <= fuel)%nat →
    dseg xs pv 0 -∗ (dseg xs pv 0 -∗ Φ ((λ x, (e_p x, e_d x)) <$> xs)) -∗
    wp (list_walk fuel (hd_p xs 0)) Φ.
  Proof.
    iIntros (Hf) "Hxs HΦ". iInduction fuel as [|fuel] "IH" forall (xs pv Φ Hf).
    - destruct xs; simpl in *; [|lia]. wp_ret. by iApply "HΦ".
    - destruct xs as [|x xs]; simpl in *.
      + wp_ret. by iApply "HΦ".
      + iDestruct "Hxs" as "[(%Hp&Hn&Hv&Hd&Hi) Hxs]".
        wp_if. wp_load. wp_load. wp_bind.
        iApply ("IH" with "[] Hxs"); first (iPureIntro; lia).
        iIntros "Hxs". wp_ret. iApply "HΦ". by iFrame.
  Qed.

  (** foreach, most general form: the callback receives the whole node (it may
      free it) and the invariant [I] of what was visited so far. *)
  Lemma wp_list_foreach_loop fuel func (I : list elem → iProp) xs0 xs pv Φ :
    (length xs <= fuel)%nat →
    □ (∀ dn x rest pv, ⌜xs0 ++ xs = dn ++ x :: rest⌝ -∗ I dn -∗ nodeP x (hd_p rest 0) pv -∗
         ⌜dn ≠ [] → pv = last_p 0 dn⌝ -∗
         wp (func (e_d x)) (λ _, I (dn ++ [x]))) -∗
    ⌜xs0 ≠ [] → pv = last_p 0 xs0⌝ -∗
    dseg xs pv 0 -∗ I xs0 -∗ (I (xs0 ++ xs) -∗ Φ tt) -∗
    wp (list_foreach_loop fuel (hd_p xs 0) func) Φ.
  Proof.
    iIntros (Hf) "#Hfunc". iIntros (Hpv) "Hxs HI HΦ".
    iInduction fuel as [|fuel] "IH" forall (xs0 xs pv Hf Hpv) "Hfunc".
    - destruct xs; simpl in *; [|lia]. wp_ret. rewrite app_nil_r. by iApply "HΦ".
    - destruct xs as [|x xs]; simpl in *.
      + wp_ret. rewrite app_nil_r. by iApply "HΦ".
      + iDestruct "Hxs" as "[(%Hp&Hn&Hv&Hd&Hi) Hxs]".
        wp_if. wp_load. wp_load. wp_bind.
        iApply (wp_wand with "[Hn Hv Hd Hi HI]").
        { iApply ("Hfunc" with "[//] HI [$Hn $Hv $Hd $Hi //] [//]"). }
        iIntros (_) "HI".
        rewrite (cons_middle x xs0 xs) (assoc_L (++)).
        iApply ("IH" with "[] [] Hxs HI HΦ Hfunc"); [iPureIntro; lia|].
        iPureIntro. intros _. by rewrite last_p_snoc.
  Qed.

  Lemma wp_list_foreach fuel l func (I : list elem → iProp) xs Φ :
    (length xs <= fuel)%nat →
    □ (∀ dn x rest nx pv, ⌜xs = dn ++ x :: rest⌝ -∗ I dn -∗ nodeP x nx pv -∗
         wp (func (e_d x)) (λ _, I (dn ++ [x]))) -∗
    lst l xs -∗ I [] -∗ (l ↦ W (hd_p xs 0) -∗ I xs -∗ Φ tt) -∗
    wp (list_foreach fuel l func) Φ.
  Proof.
    iIntros (Hf) "#Hfunc [Hl Hxs] HI HΦ". rewrite /list_foreach /list_head. wp_load.
    iApply (wp_list_foreach_loop fuel func I [] xs with "[] [] Hxs HI"); [done| |done|].
    - iIntros "!>" (dn x rest pv) "% HI Hx _". by iApply ("Hfunc" with "[//] HI Hx").
    - by iApply "HΦ".
  Qed.

  (** foreach with a callback that does not touch the nodes *)
  Lemma wp_list_foreach_loop_ro fuel func (I : list elem → iProp) xs0 xs pv Φ :
    (length xs <= fuel)%nat →
    □ (∀ dn x rest, ⌜xs0 ++ xs = dn ++ x :: rest⌝ -∗ I dn -∗
         wp (func (e_d x)) (λ _, I (dn ++ [x]))) -∗
    dseg xs pv 0 -∗ I xs0 -∗ (dseg xs pv 0 -∗ I (xs0 ++ xs) -∗ Φ tt) -∗
    wp (list_foreach_loop fuel (hd_p xs 0) func) Φ.
  Proof.
    iIntros (Hf) "#Hfunc Hxs HI HΦ".
    iInduction fuel as [|fuel] "IH" forall (xs0 xs pv Hf Φ) "Hfunc".
    - destruct xs; simpl in *; [|lia]. wp_ret. rewrite app_nil_r. by iApply ("HΦ" with "Hxs").
    - destruct xs as [|x xs]; simpl in *.
      + wp_ret. rewrite app_nil_r. by iApply ("HΦ" with "Hxs").
      + iDestruct "Hxs" as "[(%Hp&Hn&Hv&Hd&Hi) Hxs]".
        wp_if. wp_load. wp_load. wp_bind.
        iApply (wp_wand with "[HI]").
        { iApply ("Hfunc" with "[//] HI"). }
        iIntros (_) "HI".
        rewrite (cons_middle x xs0 xs) (assoc_L (++)).
        iApply ("IH" with "[] Hxs HI [-] Hfunc"); [iPureIntro; lia|].
        iIntros "Hxs HI". iApply ("HΦ" with "[-HI] HI"). by iFrame.
  Qed.
End list.

Global Typeclasses Opaque lst lseg nodeP freenode freenode_i.
Global Arguments dseg : simpl never.
