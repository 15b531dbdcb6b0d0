(** * Proofs about hash buckets, shared by the three hashtables. *)
From Verif Require Export ListHist TableSpec.
Global Open Scope Z_scope.
Local Typeclasses Transparent nodeP freenode freenode_i lst.

(** ** Elements with a hash *)
Definition e_h (e : elem) : Z := match e_i e with W h => h | _ => 0 end.
Definition hashed (e : elem) : Prop := ∃ h, e_i e = W h ∧ word h.
Definition fh (h : Z) (l : list elem) : list elem := filter (λ e, e_h e = h) l.

Lemma fh_app h l1 l2 : fh h (l1 ++ l2) = fh h l1 ++ fh h l2.
Proof. apply filter_app. Qed.
Lemma fh_cons_eq h e l : e_h e = h → fh h (e :: l) = e :: fh h l.
Proof. intros. by rewrite /fh filter_cons_True. Qed.
Lemma fh_cons_ne h e l : e_h e ≠ h → fh h (e :: l) = fh h l.
Proof. intros. by rewrite /fh filter_cons_False. Qed.
Lemma fh_none h l : Forall (λ e, e_h e ≠ h) l → fh h l = [].
Proof.
  induction 1 as [|e l He Hl IH]; [done|]. by rewrite fh_cons_ne.
Qed.

(** Lists with the same elements of each hash are permutations. *)
Lemma fh_perm l1 l2 : (∀ h, fh h l1 = fh h l2) → l1 ≡ₚ l2.
Proof.
  revert l2. induction l1 as [|e l1 IH]; intros l2 H.
  - destruct l2 as [|e l2]; [done|]. specialize (H (e_h e)). by rewrite fh_cons_eq in H.
  - assert (Hin : e ∈ fh (e_h e) l2) by (rewrite -H fh_cons_eq //; by left).
    assert (∃ a b, l2 = a ++ e :: b ∧ Forall (λ x, e_h x ≠ e_h e) a) as (a & b & -> & Ha).
    { clear IH. specialize (H (e_h e)). rewrite fh_cons_eq // in H. clear Hin.
      induction l2 as [|x l2 IH]; [done|]. destruct (decide (e_h x = e_h e)) as [Heq|Hne].
      - rewrite fh_cons_eq // in H. injection H as -> _. by exists [], l2.
      - rewrite fh_cons_ne // in H. destruct (IH H) as (a & b & -> & Ha).
        exists (x :: a), b. split; [done|]. by constructor. }
    rewrite -Permutation_middle. f_equiv. apply IH. intros h. specialize (H h).
    rewrite !fh_app in H |- *. destruct (decide (e_h e = h)) as [Heq|Hne].
    + rewrite !fh_cons_eq // in H. rewrite (fh_none h a) in H |- *; [|by subst..]. by injection H.
    + by rewrite !fh_cons_ne // in H.
Qed.

(** ** Buckets: [B i] is the content of bucket [i] of [n] *)
Record good (n : nat) (slot : Z → Z) (es : list elem) (B : nat → list elem) : Prop := Good {
  good_slot : ∀ h, word h → 0 <= slot h < Z.of_nat n;
  good_in : ∀ i, (i < n)%nat → Forall (λ e, slot (e_h e) = Z.of_nat i) (B i);
  good_fh : ∀ h, word h → fh h (B (Z.to_nat (slot h))) = fh h es;
  good_hashed : Forall hashed es;
  good_hashed_B : ∀ i, (i < n)%nat → Forall hashed (B i) }.

Lemma hashed_e e : hashed e → e_i e = W (e_h e) ∧ word (e_h e).
Proof. intros (h & Hi & Hh). by rewrite /e_h Hi. Qed.

Lemma fh_not_word h l : Forall hashed l → ¬ word h → fh h l = [].
Proof.
  intros HF Hh. apply fh_none. eapply Forall_impl; [exact HF|].
  intros e [_ He]%hashed_e Heq. by subst h.
Qed.

Definition concatB (B : nat → list elem) (l : list nat) : list elem := l ≫= B.

Lemma fh_concatB_other h slot B l : (∀ i, i ∈ l → Forall (λ e, slot (e_h e) = Z.of_nat i) (B i)) →
  (∀ i, i ∈ l → slot h ≠ Z.of_nat i) → fh h (concatB B l) = [].
Proof.
  intros H1 H2. apply fh_none. rewrite Forall_forall. intros e (i & He & Hi)%elem_of_list_bind <-.
  specialize (H1 i Hi). rewrite Forall_forall in H1. by apply (H2 i Hi), H1.
Qed.

Lemma good_perm n slot es B : good n slot es B → concatB B (seq 0 n) ≡ₚ es.
Proof.
  intros [Hs Hin Hfh Hh HhB]. apply fh_perm. intros h. destruct (decide (0 <= h < 2 ^ 64)) as [Hw|Hw].
  - rewrite -Hfh //. specialize (Hs h Hw). set (i := Z.to_nat (slot h)).
    assert (Hi : (i < n)%nat) by lia.
    replace n with (i + S (n - S i))%nat by lia. rewrite seq_app /concatB bind_app fh_app /= fh_app.
    rewrite (fh_concatB_other h slot B (seq 0 i)).
    2:{ intros j Hj%elem_of_seq. apply Hin. lia. } 2:{ intros j Hj%elem_of_seq. lia. }
    rewrite (fh_concatB_other h slot B (seq (S i) (n - S i))).
    2:{ intros j Hj%elem_of_seq. apply Hin. lia. } 2:{ intros j Hj%elem_of_seq. lia. }
    by rewrite right_id_L.
  - rewrite !fh_not_word //. rewrite Forall_forall. intros e (i & He & Hi%elem_of_seq)%elem_of_list_bind.
    specialize (HhB i ltac:(lia)). rewrite Forall_forall in HhB. auto.
Qed.

Definition upd (B : nat → list elem) (i : nat) (l : list elem) (j : nat) : list elem :=
  if decide (j = i) then l else B j.
Lemma upd_eq B i l : upd B i l i = l.
Proof. rewrite /upd. by destruct (decide (i = i)). Qed.
Lemma upd_ne B i l j : j ≠ i → upd B i l j = B j.
Proof. intros. rewrite /upd. by destruct (decide (j = i)). Qed.

Lemma good_nil n slot : (∀ h, word h → 0 <= slot h < Z.of_nat n) → good n slot [] (λ _, []).
Proof. intros Hs. constructor; auto. Qed.

Lemma good_insert n slot es B e : good n slot es B → hashed e →
  good n slot (es ++ [e]) (upd B (Z.to_nat (slot (e_h e))) (B (Z.to_nat (slot (e_h e))) ++ [e])).
Proof.
  intros [Hs Hin Hfh Hh HhB] He. destruct (hashed_e _ He) as [_ Hw].
  pose proof (Hs _ Hw) as Hse. set (i := Z.to_nat (slot (e_h e))).
  constructor; [done| | |by rewrite Forall_app Forall_singleton|].
  - intros j Hj. destruct (decide (j = i)) as [->|Hne].
    + rewrite upd_eq Forall_app Forall_singleton. split; [auto|lia].
    + rewrite upd_ne //. auto.
  - intros h Hwh. rewrite fh_app -Hfh //. destruct (decide (Z.to_nat (slot h) = i)) as [->|Hne].
    + by rewrite upd_eq fh_app.
    + rewrite upd_ne // fh_cons_ne ?right_id_L //. intros <-. done.
  - intros j Hj. destruct (decide (j = i)) as [->|Hne].
    + rewrite upd_eq Forall_app Forall_singleton. auto.
    + rewrite upd_ne //. auto.
Qed.

(** Position of an element in its bucket. *)
Lemma good_split n slot es1 e es2 B : good n slot (es1 ++ e :: es2) B →
  hashed e ∧ (Z.to_nat (slot (e_h e)) < n)%nat ∧
  ∃ b1 b2, B (Z.to_nat (slot (e_h e))) = b1 ++ e :: b2 ∧
    fh (e_h e) b1 = fh (e_h e) es1 ∧ fh (e_h e) b2 = fh (e_h e) es2.
Proof.
  intros [Hs Hin Hfh Hh HhB].
  apply Forall_app in Hh as [Hh1 Hh]. apply Forall_cons in Hh as [He Hh2].
  destruct (hashed_e _ He) as [_ Hw]. split; [done|]. split; [specialize (Hs _ Hw); lia|].
  specialize (Hfh _ Hw). rewrite fh_app fh_cons_eq // in Hfh.
  revert Hfh. generalize (B (Z.to_nat (slot (e_h e)))) as b. intros b. clear.
  generalize (fh (e_h e) es1) as f1, (fh (e_h e) es2) as f2. intros f1 f2 H.
  revert f1 H. induction b as [|x b IH]; intros f1 H; [by destruct f1|].
  destruct (decide (e_h x = e_h e)) as [Heq|Hne].
  - rewrite fh_cons_eq // in H. destruct f1 as [|y f1]; simpl in H.
    + injection H as -> <-. exists [], b. done.
    + injection H as -> H. destruct (IH _ H) as (b1 & b2 & -> & H1 & H2).
      exists (y :: b1), b2. split; [done|]. rewrite fh_cons_eq // H1 //.
  - rewrite fh_cons_ne // in H. destruct (IH _ H) as (b1 & b2 & -> & H1 & H2).
    exists (x :: b1), b2. split; [done|]. rewrite fh_cons_ne //.
Qed.

Lemma good_remove n slot es1 e es2 B b1 b2 : good n slot (es1 ++ e :: es2) B →
  B (Z.to_nat (slot (e_h e))) = b1 ++ e :: b2 →
  fh (e_h e) b1 = fh (e_h e) es1 → fh (e_h e) b2 = fh (e_h e) es2 →
  good n slot (es1 ++ es2) (upd B (Z.to_nat (slot (e_h e))) (b1 ++ b2)).
Proof.
  intros [Hs Hin Hfh Hh HhB] Hb H1 H2.
  apply Forall_app in Hh as [Hh1 Hh]. apply Forall_cons in Hh as [He Hh2].
  destruct (hashed_e _ He) as [_ Hw]. set (i := Z.to_nat (slot (e_h e))) in *.
  constructor; [done| | |by apply Forall_app|].
  - intros j Hj. destruct (decide (j = i)) as [->|Hne].
    + rewrite upd_eq. specialize (Hin _ Hj). rewrite Hb in Hin.
      apply Forall_app in Hin as [? Hin]. apply Forall_cons in Hin as [_ ?]. by apply Forall_app.
    + rewrite upd_ne //. auto.
  - intros h Hwh. destruct (decide (h = e_h e)) as [->|Hhe].
    + rewrite upd_eq !fh_app H1 H2 //.
    + specialize (Hfh h Hwh). rewrite fh_app fh_cons_ne // -fh_app in Hfh. rewrite -Hfh.
      destruct (decide (Z.to_nat (slot h) = i)) as [->|Hne].
      * rewrite upd_eq Hb !fh_app fh_cons_ne //.
      * rewrite upd_ne //.
  - intros j Hj. destruct (decide (j = i)) as [->|Hne].
    + rewrite upd_eq. specialize (HhB _ Hj). rewrite Hb in HhB.
      apply Forall_app in HhB as [? HhB]. apply Forall_cons in HhB as [_ ?]. by apply Forall_app.
    + rewrite upd_ne //. auto.
Qed.

(** ** foreach with any callback, in memory *)
Definition nd (e : elem) : Z * Z := (e_p e, e_d e).
Lemma seq_head_nd xs : seq_head (nd <$> xs) = hd_p xs 0.
Proof. by destruct xs. Qed.
Lemma nd_snd xs : (nd <$> xs).*2 = e_d <$> xs.
Proof. by rewrite -list_fmap_compose. Qed.

Lemma buckets_foreach_any func (P : list (Z * Z) → mem → Prop) all m A (B : nat → list elem) ref fuel lo hi :
  Z.of_nat hi < 2 ^ 64 →
  (∀ i m1, (lo ≤ i < hi)%nat → ref (Z.of_nat i) m1 = Ok (A i) m1) →
  (∀ i, (lo ≤ i < hi)%nat → m !! A i = Some (W (seq_head (nd <$> B i))) ∧ chained m (nd <$> B i)) →
  (∀ i, (lo ≤ i < hi)%nat → (length (B i) ≤ fuel)%nat) →
  (∀ dn x more m1 m2, all = dn ++ x :: more → P (x :: more) m1 → func x.2 m1 = Ok tt m2 → P more m2) →
  (∀ more m1, P more m1 → same_nodes more m m1) →
  (∀ more m1 i, P more m1 → (lo ≤ i < hi)%nat → m1 !! A i = m !! A i) →
  ∀ n s dn m1, (lo ≤ s)%nat → (s + n)%nat = hi → all = dn ++ (nd <$> concatB B (seq s n)) →
  P (nd <$> concatB B (seq s n)) m1 →
  buckets_foreach fuel n (Z.of_nat s) ref func m1 = each func (e_d <$> concatB B (seq s n)) m1.
Proof.
  intros Hhi Href Hat Hf Hstep Hsame Hown n.
  induction n as [|n IH]; intros s dn m1 Hlo Hs Hall HP; [done|].
  cbn [buckets_foreach seq]. rewrite /concatB bind_cons -/(concatB B (seq (S s) n)) in Hall HP |- *.
  rewrite fmap_app in Hall HP. rewrite fmap_app each_app.
  destruct (Hat s ltac:(lia)) as [Hl Hc].
  rewrite /mbind /M_bind Href; [|lia]. rewrite {1}/load (Hown _ _ s HP) ?Hl; [|lia].
  destruct (foreach_loop_any func P all m Hstep Hsame (nd <$> B s) fuel dn _ m1 Hall Hc) as [E Hn].
  { rewrite fmap_length. apply Hf. lia. } { done. }
  rewrite E nd_snd. rewrite nd_snd in Hn.
  destruct (each func (e_d <$> B s) m1) as [[] m2| | |] eqn:E2; [|done..].
  replace (wrap (Z.of_nat s + 1)) with (Z.of_nat (S s)) by (rewrite /wrap Z.mod_small; lia).
  apply (IH (S s) (dn ++ (nd <$> B s))); [lia|lia|by rewrite Hall -app_assoc|by apply Hn].
Qed.

Section bucket.
  Context `{!memG}.

  (** ** Big separating conjunctions over consecutive numbers *)
  Lemma big_seq_acc (P Q : nat → iProp) s n i :
    (s ≤ i < s + n)%nat → (∀ k, k ≠ i → (s ≤ k < s + n)%nat → P k ⊢ Q k) →
    ([∗ list] k ∈ seq s n, P k) ⊢ P i ∗ (Q i -∗ [∗ list] k ∈ seq s n, Q k).
  Proof.
    intros Hi HPQ. replace n with ((i - s) + S (s + n - S i))%nat by lia.
    rewrite seq_app !big_sepL_app. replace (s + (i - s))%nat with i by lia. simpl.
    iIntros "(H1 & $ & H2) Hi". iFrame "Hi". iSplitL "H1".
    - iApply (big_sepL_mono with "H1"). intros j k Hk. apply elem_of_list_lookup_2, elem_of_seq in Hk.
      apply HPQ; lia.
    - iApply (big_sepL_mono with "H2"). intros j k Hk. apply elem_of_list_lookup_2, elem_of_seq in Hk.
      apply HPQ; lia.
  Qed.

  Lemma big_seq_mono (P Q : nat → iProp) s n :
    (∀ k, (s ≤ k < s + n)%nat → P k ⊢ Q k) →
    ([∗ list] k ∈ seq s n, P k) ⊢ [∗ list] k ∈ seq s n, Q k.
  Proof.
    intros HPQ. apply big_sepL_mono. intros j k Hk. apply elem_of_list_lookup_2, elem_of_seq in Hk.
    apply HPQ; lia.
  Qed.

  (** The buckets at addresses [A i]. *)
  Definition bks (A : nat → Z) (n : nat) (B : nat → list elem) : iProp :=
    [∗ list] i ∈ seq 0 n, lst (A i) (B i).

  Lemma bks_acc A n B i : (i < n)%nat →
    bks A n B ⊢ lst (A i) (B i) ∗ (∀ l, lst (A i) l -∗ bks A n (upd B i l)).
  Proof.
    intros Hi. rewrite /bks. replace n with (i + S (n - S i))%nat by lia.
    rewrite seq_app !big_sepL_app. rewrite Nat.add_0_l. simpl.
    iIntros "(H1 & $ & H2)" (l) "Hi". rewrite big_sepL_app /= upd_eq. iFrame "Hi". iSplitL "H1".
    - iApply (big_seq_mono with "H1"). intros k Hk. rewrite upd_ne //. lia.
    - iApply (big_seq_mono with "H2"). intros k Hk. rewrite upd_ne //. lia.
  Qed.

  Lemma bks_same A n B i : (i < n)%nat →
    bks A n B ⊢ lst (A i) (B i) ∗ (lst (A i) (B i) -∗ bks A n B).
  Proof. intros Hi. rewrite /bks. apply (big_seq_acc (λ k, lst (A k) (B k)) (λ k, lst (A k) (B k))); [lia|done]. Qed.

  Lemma bks_mono A A' n B B' :
    (∀ i, (i < n)%nat → A i = A' i) → (∀ i, (i < n)%nat → B i = B' i) → bks A n B ⊢ bks A' n B'.
  Proof. intros HA HB. rewrite /bks. apply big_seq_mono. intros k Hk. rewrite HA; [|lia]. by rewrite HB; [|lia]. Qed.

  (** ** memset *)
  Lemma wp_memset0 a n c Φ : wordcell c →
    cells (region_cells a (RWords n)) c -∗ (cells (region_cells a (RWords n)) (W 0) -∗ Φ tt) -∗
    wp (memset0 a n) Φ.
  Proof.
    intros Hc. rewrite /cells /=. rewrite !big_sepL_fmap.
    assert (Hgen : ∀ s b, b = a + 8 * Z.of_nat s →
      ([∗ list] i ∈ seq s n, (a + 8 * Z.of_nat i) ↦ c) -∗
      (([∗ list] i ∈ seq s n, (a + 8 * Z.of_nat i) ↦ W 0) -∗ Φ tt) -∗ wp (memset0 b n) Φ).
    { revert Φ. induction n as [|n IH]; intros Φ s b ->; simpl.
      - iIntros "_ HΦ". wp_ret. by iApply "HΦ".
      - iIntros "[H1 H2] HΦ". wp_store. iApply (IH with "H2"); [lia|].
        iIntros "H2". iApply "HΦ". iFrame. }
    apply (Hgen 0%nat). lia.
  Qed.

  (** ** Elements *)
  Lemma dseg_index_acc xs pv nx x : x ∈ xs →
    dseg xs pv nx ⊢ f_index (e_p x) ↦ e_i x ∗ (f_index (e_p x) ↦ e_i x -∗ dseg xs pv nx).
  Proof.
    intros (l1 & l2 & ->)%elem_of_list_split. rewrite dseg_app dseg_cons.
    iIntros "(H1 & ($&$&$&$&$) & H2) $". iFrame.
  Qed.

  Lemma freenode_index p : freenode p ⊢ ∃ c, ⌜wordcell c⌝ ∗ freenode_i p c.
  Proof. by rewrite freenode_freenode_i. Qed.

  (** list_insert_tail followed by the store of the index *)
  Lemma wp_insert_index l p d h xs {A} (k : M A) Φ :
    freenode p -∗ lst l xs -∗ (lst l (xs ++ [El p d (W h)]) -∗ wp k Φ) -∗
    wp (list_insert_tail l p d;; store (f_index p) h;; k) Φ.
  Proof.
    iIntros "Hn Hl HΦ". rewrite freenode_freenode_i. iDestruct "Hn" as (c Hc) "Hn".
    wp_bind. iApply (wp_list_insert_tail with "Hn Hl"). iIntros "[Hl Hd]".
    rewrite dseg_snoc. iDestruct "Hd" as "[Hd (%Hp&Hn&Hv&Hda&Hi)]". simpl.
    wp_store. iApply "HΦ". rewrite /lst !last_p_snoc !hd_p_app /=. iFrame "Hl". rewrite dseg_snoc /=. by iFrame.
  Qed.

  (** ** Search loops *)
  Fixpoint scanned (f : Z → Z → Z) (arg h : Z) (b : list elem) : list Z :=
    match b with
    | [] => []
    | e :: b => if decide (e_h e = h) then
                  if decide (f arg (e_d e) = 0) then [arg; e_d e] else arg :: e_d e :: scanned f arg h b
                else scanned f arg h b
    end.
  Fixpoint hit (f : Z → Z → Z) (arg h : Z) (b : list elem) : option elem :=
    match b with
    | [] => None
    | e :: b => if decide (e_h e = h ∧ f arg (e_d e) = 0) then Some e else hit f arg h b
    end.

  (** The comparison can be called with the elements that have hash [h]. *)
  Definition ereads (ff : Z → Z → M Z) (f : Z → Z → Z) (arg h : Z) (es : list elem) : Prop :=
    ∀ e, e ∈ es → e_h e = h → reads memG_frame ff f arg (e_d e).

  Lemma wp_bucket_search fuel t ff f arg h b pv log Φ :
    (length b ≤ fuel)%nat → Forall hashed b → ereads ff f arg h b →
    dseg b pv 0 -∗ t ↦ Tape log -∗
    (dseg b pv 0 -∗ t ↦ Tape (log ++ scanned f arg h b) -∗ Φ (default 0 (e_d <$> hit f arg h b))) -∗
    wp (bucket_search fuel (tape_cmp t (λ _, ff)) arg h (hd_p b 0)) Φ.
  Proof.
    revert b pv log Φ. induction fuel as [|fuel IH]; intros b pv log Φ Hf Hb Hrd; iIntros "Hd Ht HΦ".
    - destruct b; [|simpl in Hf; lia]. simpl. wp_ret. rewrite right_id_L. iApply ("HΦ" with "Hd Ht").
    - destruct b as [|e b].
      + simpl. wp_ret. rewrite right_id_L. iApply ("HΦ" with "Hd Ht").
      + apply Forall_cons in Hb as [He Hb]. destruct (hashed_e _ He) as [Hi Hw].
        cbn [hd_p bucket_search]. rewrite dseg_cons. iDestruct "Hd" as "[(%Hp&Hn&Hv&Hda&Hix) Hd]".
        wp_if. rewrite Hi. wp_load. simpl. wp_bind.
        destruct (decide (e_h e = h)) as [Heq|Hne].
        * wp_load. wp_bind. iApply (wp_tape_cmp _ _ _ _ _ (λ _, f) with "Ht"); [apply Hrd; [left|done]|]. iIntros "Ht". wp_ret.
          destruct (decide (f arg (e_d e) = 0)) as [Hz|Hnz].
          -- rewrite (bool_decide_eq_true_2 _ Hz). wp_if. wp_load.
             destruct (decide (e_h e = h ∧ f arg (e_d e) = 0)); [|tauto]. simpl.
             iApply ("HΦ" with "[-Ht] Ht"). rewrite /nodeP Hi. by iFrame.
          -- rewrite (bool_decide_eq_false_2 _ Hnz). wp_if. wp_load.
             destruct (decide (e_h e = h ∧ f arg (e_d e) = 0)); [tauto|].
             iApply (IH with "Hd Ht"); [simpl in Hf; lia|done|intros e' ?; apply Hrd; by right|].
             iIntros "Hd Ht". rewrite -app_assoc. iApply ("HΦ" with "[-Ht] Ht").
             rewrite /nodeP Hi. by iFrame.
        * wp_ret. wp_if. wp_load. destruct (decide (e_h e = h ∧ f arg (e_d e) = 0)); [tauto|].
          iApply (IH with "Hd Ht"); [simpl in Hf; lia|done|intros e' ?; apply Hrd; by right|].
          iIntros "Hd Ht". iApply ("HΦ" with "[-Ht] Ht").
          rewrite /nodeP Hi. by iFrame.
  Qed.

  Lemma wp_bucket_remove {R} fuel t ff f arg h b pv log (found : Z → M R) (notfound : M R) Φ :
    (length b ≤ fuel)%nat → Forall hashed b → ereads ff f arg h b →
    dseg b pv 0 -∗ t ↦ Tape log -∗
    (dseg b pv 0 -∗ t ↦ Tape (log ++ scanned f arg h b) -∗
       match hit f arg h b with Some e => wp (found (e_p e)) Φ | None => wp notfound Φ end) -∗
    wp (bucket_remove fuel (tape_cmp t (λ _, ff)) arg h (hd_p b 0) found notfound) Φ.
  Proof.
    revert b pv log Φ. induction fuel as [|fuel IH]; intros b pv log Φ Hf Hb Hrd; iIntros "Hd Ht HΦ".
    - destruct b; [|simpl in Hf; lia]. simpl. rewrite right_id_L. iApply ("HΦ" with "Hd Ht").
    - destruct b as [|e b].
      + simpl. rewrite right_id_L. iApply ("HΦ" with "Hd Ht").
      + apply Forall_cons in Hb as [He Hb]. destruct (hashed_e _ He) as [Hi Hw].
        cbn [hd_p bucket_remove]. rewrite dseg_cons. iDestruct "Hd" as "[(%Hp&Hn&Hv&Hda&Hix) Hd]".
        wp_if. rewrite Hi. wp_load. simpl. wp_bind.
        destruct (decide (e_h e = h)) as [Heq|Hne].
        * wp_load. wp_bind. iApply (wp_tape_cmp _ _ _ _ _ (λ _, f) with "Ht"); [apply Hrd; [left|done]|]. iIntros "Ht". wp_ret.
          destruct (decide (f arg (e_d e) = 0)) as [Hz|Hnz].
          -- rewrite (bool_decide_eq_true_2 _ Hz). wp_if.
             destruct (decide (e_h e = h ∧ f arg (e_d e) = 0)); [|tauto].
             iApply ("HΦ" with "[-Ht] Ht"). rewrite /nodeP Hi. by iFrame.
          -- rewrite (bool_decide_eq_false_2 _ Hnz). wp_if. wp_load.
             destruct (decide (e_h e = h ∧ f arg (e_d e) = 0)); [tauto|].
             iApply (IH with "Hd Ht"); [simpl in Hf; lia|done|intros e' ?; apply Hrd; by right|].
             iIntros "Hd Ht". rewrite -app_assoc. iApply ("HΦ" with "[-Ht] Ht").
             rewrite /nodeP Hi. by iFrame.
        * wp_ret. wp_if. wp_load. destruct (decide (e_h e = h ∧ f arg (e_d e) = 0)); [tauto|].
          iApply (IH with "Hd Ht"); [simpl in Hf; lia|done|intros e' ?; apply Hrd; by right|].
          iIntros "Hd Ht". iApply ("HΦ" with "[-Ht] Ht").
          rewrite /nodeP Hi. by iFrame.
  Qed.

  (** ** foreach *)
  Lemma wp_buckets_foreach_ro fuel n s A B ref func (I : list elem → iProp) dn0 Φ :
    Z.of_nat (s + n) < 2 ^ 64 →
    (∀ i, (s ≤ i < s + n)%nat → (length (B i) ≤ fuel)%nat) →
    (∀ i Ψ, (s ≤ i < s + n)%nat → Ψ (A i) ⊢ wp (ref (Z.of_nat i)) Ψ) →
    □ (∀ dn x, I dn -∗ wp (func (e_d x)) (λ _, I (dn ++ [x]))) -∗
    ([∗ list] i ∈ seq s n, lst (A i) (B i)) -∗ I dn0 -∗
    (([∗ list] i ∈ seq s n, lst (A i) (B i)) -∗ I (dn0 ++ concatB B (seq s n)) -∗ Φ tt) -∗
    wp (buckets_foreach fuel n (Z.of_nat s) ref func) Φ.
  Proof.
    revert s dn0 Φ. induction n as [|n IH]; intros s dn0 Φ Hn Hf Href; iIntros "#Hfunc H HI HΦ".
    - simpl. wp_ret. rewrite right_id_L. iApply ("HΦ" with "H HI").
    - simpl. iDestruct "H" as "[[Hl Hd] H]". wp_bind. iApply Href; [lia|]. wp_load. wp_bind.
      iApply (wp_list_foreach_loop_ro fuel func I dn0 (B s) with "[] Hd HI"); [apply Hf; lia| |].
      { iIntros "!>" (dn x more _) "HI". by iApply "Hfunc". }
      iIntros "Hd HI".
      replace (wrap (Z.of_nat s + 1)) with (Z.of_nat (S s)) by (rewrite /wrap Z.mod_small; lia).
      iApply (IH with "Hfunc H HI"); [lia|intros; apply Hf; lia|intros; apply Href; lia|].
      iIntros "H HI". rewrite -app_assoc. iApply ("HΦ" with "[Hl Hd H] HI"). iFrame.
  Qed.

  Lemma wp_buckets_foreach fuel n s A B ref func (I : list elem → iProp) dn0 Φ :
    Z.of_nat (s + n) < 2 ^ 64 →
    (∀ i, (s ≤ i < s + n)%nat → (length (B i) ≤ fuel)%nat) →
    (∀ i Ψ, (s ≤ i < s + n)%nat → Ψ (A i) ⊢ wp (ref (Z.of_nat i)) Ψ) →
    □ (∀ dn x more nx pv, ⌜dn0 ++ concatB B (seq s n) = dn ++ x :: more⌝ -∗ I dn -∗ nodeP x nx pv -∗
         wp (func (e_d x)) (λ _, I (dn ++ [x]))) -∗
    ([∗ list] i ∈ seq s n, lst (A i) (B i)) -∗ I dn0 -∗
    (([∗ list] i ∈ seq s n, ∃ c, ⌜wordcell c⌝ ∗ A i ↦ c) -∗ I (dn0 ++ concatB B (seq s n)) -∗ Φ tt) -∗
    wp (buckets_foreach fuel n (Z.of_nat s) ref func) Φ.
  Proof.
    revert s dn0 Φ. induction n as [|n IH]; intros s dn0 Φ Hn Hf Href; iIntros "#Hfunc H HI HΦ".
    - simpl. wp_ret. rewrite right_id_L. iApply ("HΦ" with "H HI").
    - simpl. iDestruct "H" as "[[Hl Hd] H]". wp_bind. iApply Href; [lia|]. wp_load. wp_bind.
      pose (I' := λ dn, I (dn0 ++ dn)).
      iApply (wp_list_foreach_loop fuel func I' [] (B s) with "[] [] Hd [HI]"); [apply Hf; lia| |done| |].
      { iIntros "!>" (dn x more pv Heq) "HI Hn _". rewrite /I'.
        iApply (wp_wand with "[HI Hn]"); [iApply ("Hfunc" with "[] HI Hn")|iIntros (_) "HI"; rewrite -app_assoc; iExact "HI"].
        iPureIntro. simpl in Heq. rewrite Heq -!assoc_L //. }
      { by rewrite /I' right_id_L. }
      rewrite /I' /=. iIntros "HI".
      replace (wrap (Z.of_nat s + 1)) with (Z.of_nat (S s)) by (rewrite /wrap Z.mod_small; lia).
      iApply (IH with "[] H HI"); [lia|intros; apply Hf; lia|intros; apply Href; lia| |].
      { iIntros "!>" (dn x more nx pv Heq) "HI Hn". iApply ("Hfunc" with "[] HI Hn"). iPureIntro.
        rewrite assoc_L //. }
      iIntros "H HI". rewrite -app_assoc. iApply ("HΦ" with "[Hl H] HI"). iFrame. iExists _. by iFrame.
  Qed.
  (** ** foreach with any callback *)
  Lemma dseg_chained xs pv m : dseg xs pv 0 -∗ memI m -∗ ⌜chained m (nd <$> xs)⌝.
  Proof.
    iIntros "Hd Hm". iInduction xs as [|x xs] "IH" forall (pv); [done|].
    iDestruct "Hd" as "[(%Hp & Hn & _ & Hdt & _) Hd]".
    iDestruct (memI_lookup with "Hm Hn") as %Hn. iDestruct (memI_lookup with "Hm Hdt") as %Hdt.
    iDestruct ("IH" with "Hd Hm") as %Hc. iPureIntro. simpl. rewrite seq_head_nd. done.
  Qed.

  Lemma lists_at s n A B m :
    ([∗ list] i ∈ seq s n, lst (A i) (B i)) -∗ memI m -∗
    ⌜∀ i, (s ≤ i < s + n)%nat → m !! A i = Some (W (seq_head (nd <$> B i))) ∧ chained m (nd <$> B i)⌝.
  Proof.
    iIntros "HB Hm" (i Hi).
    iDestruct (big_sepL_lookup _ _ (i - s) i with "HB") as "[Hl Hd]".
    { apply lookup_seq. lia. }
    iDestruct (memI_lookup with "Hm Hl") as %Hl. iDestruct (dseg_chained with "Hd Hm") as %Hc.
    iPureIntro. by rewrite seq_head_nd.
  Qed.
End bucket.

(** ** First match *)
Definition eacc (f : Z → Z → Z) (arg h : Z) (e : elem) : Prop := e_h e = h ∧ f arg (e_d e) = 0.
Definition ecalls (arg h : Z) (es : list elem) : list Z := e ← fh h es; [arg; e_d e].

Lemma first_unique {A} (P : A → Prop) (l1 l2 k1 k2 : list A) x y :
  l1 ++ x :: l2 = k1 ++ y :: k2 → Forall (λ x, ¬ P x) l1 → Forall (λ x, ¬ P x) k1 → P x → P y →
  l1 = k1 ∧ x = y ∧ l2 = k2.
Proof.
  revert k1. induction l1 as [|a l1 IH]; intros [|b k1] Heq Hl Hk Hx Hy; simpl in *.
  - by injection Heq as -> ->.
  - injection Heq as -> ->. inversion_clear Hk. done.
  - injection Heq as -> <-. inversion_clear Hl. done.
  - injection Heq as -> Heq. inversion_clear Hl. inversion_clear Hk.
    destruct (IH _ Heq) as (-> & -> & ->); auto.
Qed.

Lemma hit_cases f arg h b :
  (∃ b1 e b2, b = b1 ++ e :: b2 ∧ hit f arg h b = Some e ∧ eacc f arg h e ∧
     Forall (λ e, ¬ eacc f arg h e) b1 ∧ scanned f arg h b = ecalls arg h (b1 ++ [e])) ∨
  (hit f arg h b = None ∧ Forall (λ e, ¬ eacc f arg h e) b ∧ scanned f arg h b = ecalls arg h b).
Proof.
  induction b as [|e b IH]; simpl; [right; split; [done|]; split; [constructor|done]|].
  destruct (decide (e_h e = h ∧ f arg (e_d e) = 0)) as [[Hh Hf]|Hn].
  - left. exists [], e, b. split; [done|]. split; [done|]. split; [done|]. split; [constructor|].
    destruct (decide (e_h e = h)); [|done]. destruct (decide (f arg (e_d e) = 0)); [|done].
    by rewrite /ecalls /= fh_cons_eq.
  - assert (Hsc : scanned f arg h (e :: b) = ecalls arg h [e] ++ scanned f arg h b).
    { simpl. rewrite /ecalls. destruct (decide (e_h e = h)).
      - rewrite fh_cons_eq //=. destruct (decide (f arg (e_d e) = 0)); [tauto|done].
      - by rewrite fh_cons_ne. }
    simpl in Hsc. rewrite Hsc. clear Hsc.
    destruct IH as [(b1 & e' & b2 & -> & H1 & H2 & H3 & H4)|(H1 & H2 & H3)].
    + left. exists (e :: b1), e', b2. split; [done|]. split; [done|]. split; [done|].
      split; [by constructor|]. rewrite H4 /ecalls -bind_app -fh_app //.
    + right. split; [done|]. split; [by constructor|]. rewrite H3 /ecalls -bind_app -fh_app //.
Qed.

Lemma hit_fh f arg h b : hit f arg h b = hit f arg h (fh h b).
Proof.
  induction b as [|e b IH]; [done|]. destruct (decide (e_h e = h)) as [Heq|Hne].
  - rewrite fh_cons_eq //=. by rewrite IH.
  - rewrite fh_cons_ne //=. destruct (decide (e_h e = h ∧ f arg (e_d e) = 0)); [tauto|done].
Qed.
Lemma scanned_fh f arg h b : scanned f arg h b = scanned f arg h (fh h b).
Proof.
  induction b as [|e b IH]; [done|]. destruct (decide (e_h e = h)) as [Heq|Hne].
  - rewrite fh_cons_eq //=. destruct (decide (e_h e = h)); [|done]. by rewrite IH.
  - rewrite fh_cons_ne //=. destruct (decide (e_h e = h)); done.
Qed.

Lemma eacc_fh f arg h l : Forall (λ e, ¬ eacc f arg h e) l → Forall (λ e, ¬ eacc f arg h e) (fh h l).
Proof. rewrite !Forall_forall. intros H e [_ He]%elem_of_list_filter. auto. Qed.

(** A search in a bucket with the same elements of hash [h] finds the first match. *)
Lemma hit_spec f arg h b es : fh h b = fh h es →
  (∃ es1 e es2 b1 b2, es = es1 ++ e :: es2 ∧ b = b1 ++ e :: b2 ∧ hit f arg h b = Some e ∧
     eacc f arg h e ∧ Forall (λ e, ¬ eacc f arg h e) es1 ∧
     scanned f arg h b = ecalls arg h (es1 ++ [e]) ∧ fh h b1 = fh h es1 ∧ fh h b2 = fh h es2) ∨
  (hit f arg h b = None ∧ Forall (λ e, ¬ eacc f arg h e) es ∧ scanned f arg h b = ecalls arg h es).
Proof.
  intros Heq.
  assert (Hhit : hit f arg h b = hit f arg h es) by rewrite hit_fh Heq -hit_fh //.
  assert (Hsc : scanned f arg h b = scanned f arg h es) by rewrite scanned_fh Heq -scanned_fh //.
  destruct (hit_cases f arg h es) as [(es1 & e & es2 & -> & H1 & H2 & H3 & H4)|(H1 & H2 & H3)].
  - left. destruct (hit_cases f arg h b) as [(b1 & e' & b2 & -> & H1' & H2' & H3' & H4')|(H1' & _)]; [|congruence].
    assert (e' = e) as -> by congruence.
    rewrite !fh_app !fh_cons_eq in Heq; [|by destruct H2..].
    apply (first_unique (eacc f arg h)) in Heq as (? & _ & ?); [|by apply eacc_fh..|done|done].
    exists es1, e, es2, b1, b2. rewrite Hsc H4. done.
  - right. rewrite Hhit Hsc. done.
Qed.

(** A bucket has no more elements than the table. *)
Lemma good_length n slot es B i : good n slot es B → (i < n)%nat → (length (B i) ≤ length es)%nat.
Proof.
  intros Hg Hi. rewrite -(good_perm _ _ _ _ Hg). 
  replace n with (i + S (n - S i))%nat by lia. rewrite seq_app /concatB bind_app /= !app_length. lia.
Qed.
Lemma good_submseteq n slot es B i : good n slot es B → (i < n)%nat → B i ⊆+ es.
Proof.
  intros Hg Hi. rewrite -(good_perm _ _ _ _ Hg). 
  replace n with (i + S (n - S i))%nat by lia. rewrite seq_app /concatB bind_app /=.
  apply submseteq_inserts_l, submseteq_inserts_r. done.
Qed.
Lemma good_ext n slot es B B' : good n slot es B → (∀ i, (i < n)%nat → B i = B' i) → good n slot es B'.
Proof.
  intros [Hs Hin Hfh Hh HhB] HB. constructor; [done| | |done|].
  - intros i Hi. rewrite -HB //. auto.
  - intros h Hw. rewrite -HB; [auto|]. specialize (Hs h Hw). lia.
  - intros i Hi. rewrite -HB //. auto.
Qed.
