(** * History theorem for the arrays, from specifications of their operations. *)
From Verif Require Export ArraySpec ClientProof.
Global Open Scope Z_scope.

(** ** Heap blocks *)

(** Blocks that are not null, inside the address space and do not overlap. *)
Definition blocks_ok (bs : gmap Z region) : Prop :=
  (∀ b r, bs !! b = Some r → 0 < b ∧ b + region_bytes r < 2 ^ 64) ∧
  (∀ b r b' r', bs !! b = Some r → bs !! b' = Some r' → b ≠ b' →
    apart b (region_bytes r) b' (region_bytes r')).

Lemma region_bytes_nonneg r : 0 ≤ region_bytes r.
Proof. destruct r; simpl; lia. Qed.

Lemma apart_sym a n b k : apart a n b k → apart b k a n.
Proof. rewrite /apart. lia. Qed.

Lemma blocks_ok_insert bs a r :
  blocks_ok bs → 0 < a → a + region_bytes r < 2 ^ 64 → bs !! a = None →
  (∀ b s, bs !! b = Some s → apart a (region_bytes r) b (region_bytes s)) →
  blocks_ok (<[a := r]> bs).
Proof.
  intros [H1 H2] Ha Hb Hn Hap. split.
  - intros b s. rewrite lookup_insert_Some. intros [[<- <-]|[_ Hs]]; [done|by apply H1].
  - intros b s b' s'. rewrite !lookup_insert_Some.
    intros [[<- <-]|[Hne Hs]] [[<- <-]|[Hne' Hs']] Hbb; try done.
    + by apply Hap.
    + apply apart_sym. by apply Hap.
    + by apply H2.
Qed.

Lemma blocks_ok_subseteq bs bs' : bs' ⊆ bs → blocks_ok bs → blocks_ok bs'.
Proof.
  intros Hs [H1 H2]. split.
  - intros b r Hb. eapply H1, lookup_weaken; eauto.
  - intros b r b' r' Hb Hb'. eapply H2; eapply lookup_weaken; eauto.
Qed.

Lemma range_length (n : Z) (qs : list Z) :
  0 ≤ n → NoDup qs → Forall (λ q, 1 <= q <= n) qs → Z.of_nat (length qs) <= n.
Proof.
  intros Hn Hnd HF. revert qs Hnd HF. pattern n. apply natlike_ind; [| |done].
  - intros qs _ HF. destruct qs; simpl; [lia|]. inversion_clear HF. lia.
  - intros k Hk IH qs Hnd HF.
    destruct (decide (Z.succ k ∈ qs)) as [(l1&l2&->)%elem_of_list_split|Hni].
    + assert (Hnd' : NoDup (l1 ++ l2)) by (eapply (NoDup_cons_1_2 (Z.succ k)); rewrite Permutation_middle; done).
      assert (Hni : Z.succ k ∉ l1 ++ l2) by (apply (NoDup_cons_1_1); rewrite Permutation_middle; done).
      specialize (IH _ Hnd'). rewrite app_length /=. rewrite app_length in IH.
      cut (Z.of_nat (length l1 + length l2) <= k); [lia|]. apply IH.
      rewrite Forall_forall. rewrite Forall_forall in HF. intros q Hq.
      assert (q ∈ l1 ++ Z.succ k :: l2) by set_solver. specialize (HF q H).
      assert (q ≠ Z.succ k) by set_solver. lia.
    + specialize (IH _ Hnd). cut (Z.of_nat (length qs) <= k); [lia|]. apply IH.
      rewrite Forall_forall. rewrite Forall_forall in HF. intros q Hq. specialize (HF q Hq).
      assert (q ≠ Z.succ k) by set_solver. lia.
Qed.

(** Blocks that do not overlap are smaller than the address space. *)
Lemma blocks_ok_bytes bs : blocks_ok bs → 0 ≤ heap_bytes bs < 2 ^ 64.
Proof.
  intros Hok.
  assert (∃ l, NoDup l ∧ Z.of_nat (length l) = heap_bytes bs ∧
    (∀ x, x ∈ l → ∃ b r, bs !! b = Some r ∧ b ≤ x < b + region_bytes r)) as (l & Hnd & Hlen & Hl).
  { induction bs as [|a r bs Ha IH] using map_ind.
    - exists []. split; [constructor|]. rewrite heap_bytes_empty. split; [done|]. intros x Hx. by apply elem_of_nil in Hx.
    - destruct IH as (l & Hnd & Hlen & Hl).
      { eapply blocks_ok_subseteq; [|exact Hok]. by apply insert_subseteq. }
      pose proof (region_bytes_nonneg r).
      exists (seqZ a (region_bytes r) ++ l). split; [|split].
      + apply NoDup_app. split; [apply NoDup_seqZ|]. split; [|done].
        intros x Hx%elem_of_seqZ (b & s & Hs & Hxs)%Hl. destruct Hok as [_ Hok].
        assert (a ≠ b) by (intros ->; congruence).
        destruct (Hok a r b s) as [|]; [apply lookup_insert|by rewrite lookup_insert_ne|done|lia..].
      + rewrite app_length seqZ_length heap_bytes_insert //. lia.
      + intros x [Hx%elem_of_seqZ|(b & s & Hs & Hxs)%Hl]%elem_of_app.
        * exists a, r. split; [apply lookup_insert|lia].
        * exists b, s. split; [|done]. rewrite lookup_insert_ne //. intros ->; congruence. }
  split; [lia|]. rewrite -Hlen.
  enough (Z.of_nat (length l) ≤ 2 ^ 64 - 1) by lia. apply range_length; [done|done|].
  rewrite Forall_forall. intros x (b & r & Hb & Hx)%Hl. destruct Hok as [Hok _]. specialize (Hok _ _ Hb). lia.
Qed.

(** ** Elements *)
Section elements.
  Context `{!memG}.
  Variable w : bool.

  Definition elemP (a : Z) (vs : list Z) : iProp :=
    [∗ list] j ↦ v ∈ vs, (a + unit_size w * Z.of_nat j) ↦ unit_cell w v.
  Definition rawelem (kk : nat) (a : Z) : iProp := ∃ vs, ⌜length vs = kk⌝ ∗ elemP a vs.
  Definition zeros (kk : nat) (A : list Z) : iProp := [∗ list] a ∈ A, elemP a (replicate kk 0).

  (** Region of [n] elements. *)
  Definition mkreg (kk n : nat) : region := if w then RWords (n * kk) else RBytes (n * kk).
  Definition stride (kk : nat) : Z := unit_size w * Z.of_nat kk.

  Lemma mkreg_bytes kk n : region_bytes (mkreg kk n) = stride kk * Z.of_nat n.
  Proof. rewrite /mkreg /stride. destruct w; simpl; lia. Qed.
  Lemma mkreg_cells a kk n :
    region_cells a (mkreg kk n) = (λ i : nat, a + unit_size w * Z.of_nat i) <$> seq 0 (n * kk).
  Proof. rewrite /mkreg. destruct w; simpl; [done|]. apply list_fmap_ext. intros. lia. Qed.

  Lemma big_sepL_seq_mul (P : nat → iProp) n kk :
    ([∗ list] i ∈ seq 0 (n * kk), P i) ⊣⊢ [∗ list] q ∈ seq 0 n, [∗ list] j ∈ seq 0 kk, P (q * kk + j)%nat.
  Proof.
    induction n as [|n IH]; [done|].
    replace (S n * kk)%nat with (n * kk + kk)%nat by lia. rewrite seq_app big_sepL_app IH seq_S big_sepL_app.
    f_equiv. cbn [Nat.add]. rewrite big_sepL_singleton. pose proof (fmap_add_seq (n * kk) 0 kk) as Hs.
    rewrite Nat.add_0_r in Hs. rewrite -Hs big_sepL_fmap //.
  Qed.

  Lemma elemP_zero a kk :
    elemP a (replicate kk 0) ⊣⊢ [∗ list] j ∈ seq 0 kk, (a + unit_size w * Z.of_nat j) ↦ unit_cell w 0.
  Proof.
    rewrite /elemP. induction kk as [|kk IH]; [done|].
    rewrite replicate_S_end seq_S !big_sepL_app IH !big_sepL_singleton replicate_length.
    cbn [Nat.add]. by rewrite Nat.add_0_r.
  Qed.

  Lemma region_zeros a kk n :
    cells (region_cells a (mkreg kk n)) (unit_cell w 0) ⊢
    zeros kk ((λ q : nat, a + stride kk * Z.of_nat q) <$> seq 0 n).
  Proof.
    rewrite /cells mkreg_cells big_sepL_fmap (big_sepL_seq_mul (λ i, (a + unit_size w * Z.of_nat i) ↦ unit_cell w 0)%I).
    rewrite /zeros big_sepL_fmap. apply big_sepL_mono. intros i q Hq. rewrite elemP_zero.
    apply big_sepL_mono. intros j v Hj. assert (a + unit_size w * Z.of_nat (q * kk + v) = a + stride kk * Z.of_nat q + unit_size w * Z.of_nat v) as ->;
      [rewrite /stride; lia|done].
  Qed.

  Lemma rawelem_cells kk a :
    rawelem kk a ⊢ [∗ list] j ∈ seq 0 kk, ∃ c, (a + unit_size w * Z.of_nat j) ↦ c.
  Proof.
    iIntros "(%vs & <- & H)". rewrite /elemP.
    iInduction vs as [|v vs] "IH" using rev_ind; [done|].
    rewrite app_length seq_app !big_sepL_app. iDestruct "H" as "[H1 H2]".
    iSplitL "H1"; [by iApply "IH"|]. simpl. rewrite Nat.add_0_r. iDestruct "H2" as "[H2 _]". iSplitL; [|done]. by iExists _.
  Qed.

  Lemma region_raw a kk n :
    ([∗ list] b ∈ (λ q : nat, a + stride kk * Z.of_nat q) <$> seq 0 n, rawelem kk b) ⊢
    [∗ list] k ∈ region_cells a (mkreg kk n), ∃ c, k ↦ c.
  Proof.
    rewrite mkreg_cells !big_sepL_fmap (big_sepL_seq_mul (λ i, ∃ c, (a + unit_size w * Z.of_nat i) ↦ c)%I).
    apply big_sepL_mono. intros i q Hq. rewrite rawelem_cells.
    apply big_sepL_mono. intros j v Hj. assert (a + unit_size w * Z.of_nat (q * kk + v) = a + stride kk * Z.of_nat q + unit_size w * Z.of_nat v) as ->;
      [rewrite /stride; lia|done].
  Qed.
End elements.

(** ** What each array has to provide *)
Definition afacts (n : Z) (A : list Z) (own : gmap Z region) : Prop :=
  blocks_ok own ∧
  (∀ i j a b, A !! i = Some a → A !! j = Some b → i ≠ j → apart a n b n) ∧
  (∀ a, a ∈ A → ∃ b r, own !! b = Some r ∧ b ≤ a ∧ a + n ≤ b + region_bytes r).

Record array_proof (T : arrays) (inv : ay_st T → Z → Z → Prop) `{!memG} := ArrayProof {
  (** [A]: addresses of the positions with memory; [c]: the size. *)
  ap_shell : ay_st T → nat → list Z → nat → gmap Z region → iProp;
  ap_init : ∀ k cl Φ, 1 ≤ k < 2 ^ 64 →
    hctl cl -∗
    (∀ st A own, ⌜own ##ₘ cl⌝ -∗ ap_shell st (if ay_words T then 1%nat else Z.to_nat k) A 0%nat own -∗
      zeros (ay_words T) (if ay_words T then 1%nat else Z.to_nat k) A -∗ hctl (own ∪ cl) -∗ Φ st) -∗
    wp (ay_init T k) Φ;
  ap_grow : ∀ st kk A c own cl n Φ, own ##ₘ cl → 0 ≤ n ≤ ay_max T →
    ap_shell st kk A c own -∗ hctl (own ∪ cl) -∗
    (∀ st' A' own', ⌜own ⊆ own'⌝ -∗ ⌜own' ##ₘ cl⌝ -∗ ap_shell st' kk (A ++ A') (c `max` Z.to_nat n) own' -∗
      zeros (ay_words T) kk A' -∗ hctl (own' ∪ cl) -∗ Φ st') -∗
    wp (ay_grow T st n) Φ;
  ap_ref : ∀ st kk A c own i a Φ, (i < c)%nat → A !! i = Some a →
    ap_shell st kk A c own -∗ (ap_shell st kk A c own -∗ Φ a) -∗ wp (ay_ref T st (Z.of_nat i)) Φ;
  ap_done : ∀ st kk A c own cl Φ, own ##ₘ cl →
    ap_shell st kk A c own -∗ ([∗ list] a ∈ A, rawelem (ay_words T) kk a) -∗ hctl (own ∪ cl) -∗
    (hctl cl -∗ Φ tt) -∗ wp (ay_done T st) Φ;
  ap_facts : ∀ st kk A c own, ap_shell st kk A c own ⊢
    ⌜(c ≤ length A)%nat ∧ stride (ay_words T) kk * Z.of_nat (length A) < 2 ^ 64 ∧
     ay_size T st = Z.of_nat c ∧ ay_usage T st = heap_bytes own ∧ inv st (Z.of_nat c) (Z.of_nat kk) ∧
     afacts (stride (ay_words T) kk) A own ∧ (ay_words T = true → kk = 1%nat)⌝;
  ap_max : 2 ^ 61 ≤ ay_max T;
  ap_set : ∀ st i v, ay_words T = true → ay_set T st i v = (p ← ay_ref T st i; store p v);
  ap_get : ∀ st i, ay_words T = true → ay_get T st i = (p ← ay_ref T st i; load p);
  ap_insert : ∀ st v, ay_words T = true →
    ay_insert T st v = (t' ← ay_grow T st (add64 (ay_size T st) 1); ay_set T t' (ay_size T st) v;; mret t') }.
Global Arguments ap_shell {_ _ _}.

Section array_hist.
  Context `{!memG}.
  Variable T : arrays.
  Variable inv : ay_st T → Z → Z → Prop.
  Variable P : array_proof T inv.
  Notation w := (ay_words T).
  Notation shell := (ap_shell P).

  Definition AR (cs : option (ay_st T)) (s : astate) : iProp :=
    match as_arr s with
    | None => ⌜cs = None⌝ ∗ ⌜as_own s = ∅⌝ ∗ hctl (as_live s)
    | Some (k, es) => ∃ st A, ⌜cs = Some st⌝ ∗ ⌜as_own s ##ₘ as_live s⌝ ∗
        shell st k A (length es) (as_own s) ∗ hctl (as_own s ∪ as_live s) ∗
        ⌜el_addr <$> es = take (length es) A⌝ ∗ ⌜Forall (λ e, length (el_vals e) = k) es⌝ ∗
        ([∗ list] e ∈ es, elemP w (el_addr e) (el_vals e)) ∗ zeros w k (drop (length es) A)
    end.

  Lemma afacts_awf k A own live es : own ##ₘ live →
    afacts (stride w k) A own → el_addr <$> es = take (length es) A →
    Forall (λ e, length (el_vals e) = k) es → awf w es own live.
  Proof.
    intros Hd (Hok & Hap & Hin) Hes HF.
    assert (Hlk : ∀ i e, es !! i = Some e → A !! i = Some (el_addr e) ∧ el_size w e = stride w k).
    { intros i e Hi. split.
      - assert (Hq : (el_addr <$> es) !! i = Some (el_addr e)) by by rewrite list_lookup_fmap Hi.
        rewrite Hes in Hq. rewrite lookup_take in Hq; [done|]. by apply lookup_lt_Some in Hi.
      - rewrite Forall_lookup in HF. rewrite /el_size /stride (HF _ _ Hi) //. }
    split; [done|]. split; [apply Hok|]. split.
    - intros i j e e' Hi Hj Hne. destruct (Hlk _ _ Hi) as [Hi' ->]. destruct (Hlk _ _ Hj) as [Hj' ->]. by eapply Hap.
    - intros e [i Hi]%elem_of_list_lookup. destruct (Hlk _ _ Hi) as [Hi' ->].
      destruct (Hin (el_addr e)) as (b & r & ? & ? & ?); [by eapply elem_of_list_lookup_2|]. eauto.
  Qed.

  (** Extension of the array, for grow and insert. *)
  Lemma zeros_take k A n : zeros w k A -∗ zeros w k (take n A) ∗ zeros w k (drop n A).
  Proof. rewrite /zeros -big_sepL_app take_drop. by iIntros. Qed.

  Lemma wp_grow_es st k A es own live n Φ : own ##ₘ live → 0 ≤ n ≤ ay_max T →
    el_addr <$> es = take (length es) A → Forall (λ e, length (el_vals e) = k) es →
    shell st k A (length es) own -∗ hctl (own ∪ live) -∗
    ([∗ list] e ∈ es, elemP w (el_addr e) (el_vals e)) -∗ zeros w k (drop (length es) A) -∗
    (∀ st' A' own' news, ⌜own ⊆ own'⌝ -∗ ⌜own' ##ₘ live⌝ -∗ ⌜zeroed (Z.max 0 (n - Z.of_nat (length es))) k news⌝ -∗
      ⌜el_addr <$> (es ++ news) = take (length (es ++ news)) A'⌝ -∗
      ⌜Forall (λ e, length (el_vals e) = k) (es ++ news)⌝ -∗ ⌜awf w (es ++ news) own' live⌝ -∗
      shell st' k A' (length (es ++ news)) own' -∗ hctl (own' ∪ live) -∗
      ([∗ list] e ∈ es ++ news, elemP w (el_addr e) (el_vals e)) -∗
      zeros w k (drop (length (es ++ news)) A') -∗ Φ st') -∗
    wp (ay_grow T st n) Φ.
  Proof.
    iIntros (Hd Hn Hes HF) "Hsh Hc Hel Hz HΦ". iDestruct (ap_facts _ _ P with "Hsh") as %(Hle & _).
    iApply (ap_grow _ _ P with "Hsh Hc"); [done|done|]. iIntros (st' A' own' Hsub Hd') "Hsh Hz' Hc".
    iDestruct (ap_facts _ _ P with "Hsh") as %(Hle' & _ & _ & _ & _ & Haf & _).
    set (d := (Z.to_nat n - length es)%nat).
    set (B := drop (length es) (A ++ A')).
    assert (HB : B = drop (length es) A ++ A') by (rewrite /B drop_app_le //).
    iAssert (zeros w k B) with "[Hz Hz']" as "Hz"; [rewrite HB /zeros big_sepL_app; iFrame|].
    iDestruct (zeros_take _ _ d with "Hz") as "[Hz1 Hz2]".
    set (news := (λ a, Elt a (replicate k 0)) <$> take d B).
    assert (HlB : (d ≤ length B)%nat) by (rewrite /B drop_length /d; lia).
    assert (Hln : length news = d) by (rewrite /news fmap_length take_length; lia).
    assert (Hlen : length (es ++ news) = (length es `max` Z.to_nat n)%nat) by (rewrite app_length Hln /d; lia).
    rewrite -Hlen.
    assert (Hadr : el_addr <$> es ++ news = take (length (es ++ news)) (A ++ A')).
    { rewrite fmap_app Hes /news -list_fmap_compose (list_fmap_ext (el_addr ∘ _) id _) ?list_fmap_id //.
      assert (take (length es) A = take (length es) (A ++ A')) as -> by (rewrite take_app_le //).
      rewrite app_length Hln /B. by rewrite take_take_drop. }
    assert (HF' : Forall (λ e, length (el_vals e) = k) (es ++ news)).
    { apply Forall_app. split; [done|]. rewrite /news. apply Forall_fmap. apply Forall_forall. intros a _. simpl. apply replicate_length. }
    iApply ("HΦ" $! st' (A ++ A') own' news with "[] [] [] [] [] [] Hsh Hc [Hel Hz1] [Hz2]"); try done.
    - iPureIntro. split; [rewrite Hln /d; lia|]. rewrite /news. apply Forall_fmap. by apply Forall_forall.
    - iPureIntro. by eapply afacts_awf.
    - rewrite big_sepL_app. iFrame "Hel". rewrite /news big_sepL_fmap. done.
    - rewrite /B drop_drop app_length Hln. done.
  Qed.

  Lemma shell_ref st k A es own z i e Φ : z = Z.of_nat i →
    el_addr <$> es = take (length es) A → es !! i = Some e →
    shell st k A (length es) own -∗ (shell st k A (length es) own -∗ Φ (el_addr e)) -∗
    wp (ay_ref T st z) Φ.
  Proof.
    iIntros (-> Hes Hi) "Hs HΦ". pose proof (lookup_lt_Some _ _ _ Hi) as Hlt.
    iApply (ap_ref _ _ P with "Hs"); [done| |done].
    assert (Hq : (el_addr <$> es) !! i = Some (el_addr e)) by by rewrite list_lookup_fmap Hi.
    rewrite Hes in Hq. by rewrite lookup_take in Hq.
  Qed.

  Lemma elem_acc es i e : es !! i = Some e →
    ([∗ list] e ∈ es, elemP w (el_addr e) (el_vals e)) ⊢
    elemP w (el_addr e) (el_vals e) ∗
    (∀ vs, elemP w (el_addr e) vs -∗ [∗ list] e ∈ <[i := Elt (el_addr e) vs]> es, elemP w (el_addr e) (el_vals e)).
  Proof.
    iIntros (Hi) "H". iDestruct (big_sepL_insert_acc with "H") as "[$ H]"; [done|].
    iIntros (vs) "Hv". iApply ("H" $! (Elt (el_addr e) vs)). done.
  Qed.

  Lemma update_facts k (es : list elt) A i e vs : es !! i = Some e → length vs = length (el_vals e) →
    el_addr <$> es = take (length es) A → Forall (λ e, length (el_vals e) = k) es →
    el_addr <$> <[i := Elt (el_addr e) vs]> es = take (length es) A ∧
    Forall (λ e, length (el_vals e) = k) (<[i := Elt (el_addr e) vs]> es).
  Proof.
    intros Hi Hl Hes HF. split.
    - rewrite list_fmap_insert /= list_insert_id // list_lookup_fmap Hi //.
    - apply Forall_insert; [done|]. simpl. rewrite Hl. by eapply Forall_lookup in Hi; [|exact HF].
  Qed.

  Lemma wp_astep cs s o Φ : apre T s o →
    AR cs s -∗ (∀ cs' a s', ⌜apost T s o a s'⌝ -∗ AR cs' s' -∗ Φ (cs', a)) -∗ wp (astep T cs o) Φ.
  Proof.
    iIntros (Hpre) "HR HΦ". destruct s as [arr own live]. rewrite /AR. simpl in *.
    destruct o; simpl in Hpre.
    - (* init *)
      destruct Hpre as [-> Hk]. iDestruct "HR" as "(-> & -> & Hc)". rewrite /astep. wp_bind.
      iApply (ap_init _ _ P with "Hc"); [done|]. iIntros (st A own Hd) "Hsh Hz Hc". wp_ret.
      iDestruct (ap_facts _ _ P with "Hsh") as %(_ & _ & _ & _ & _ & Haf & _).
      iApply "HΦ".
      { iPureIntro. split; [done|]. exists own. split; [done|]. eapply afacts_awf; eauto. }
      simpl. iExists st, A. iSplit; [done|]. iSplit; [done|]. iFrame. done.
    - (* grow *)
      destruct Hpre as [[[k es] ->] Hn]. iDestruct "HR" as (st A -> Hd) "(Hsh & Hc & %Hes & %HF & Hel & Hz)".
      rewrite /astep. wp_bind. iApply (wp_grow_es with "Hsh Hc Hel Hz"); [done..|].
      iIntros (st' A' own' news Hsub Hd' Hzn Hes' HF' Hwf) "Hsh Hc Hel Hz". wp_ret.
      iApply "HΦ". { iPureIntro. split; [done|]. exists k, es, news, own'. split_and!; try done. }
      simpl. iExists st', A'. iFrame. done.
    - (* size *)
      destruct Hpre as [[k es] ->]. iDestruct "HR" as (st A -> Hd) "(Hsh & HR)".
      iDestruct (ap_facts _ _ P with "Hsh") as %(_ & _ & Hsz & _). rewrite /astep. wp_ret.
      iApply "HΦ". { iPureIntro. exists k, es. by rewrite Hsz. }
      simpl. iExists st, A. iFrame. done.
    - (* memory_usage *)
      destruct Hpre as [[k es] ->]. iDestruct "HR" as (st A -> Hd) "(Hsh & HR)".
      iDestruct (ap_facts _ _ P with "Hsh") as %(_ & _ & _ & Hus & _). rewrite /astep. wp_ret.
      iApply "HΦ". { iPureIntro. by rewrite Hus. }
      simpl. iExists st, A. iFrame. done.
    - (* ref *)
      destruct Hpre as (k & es & -> & Hi). iDestruct "HR" as (st A -> Hd) "(Hsh & Hc & %Hes & HR)".
      destruct (lookup_lt_is_Some_2 es (Z.to_nat i)) as [e He]; [lia|].
      rewrite /astep. wp_bind. iApply (shell_ref with "Hsh"); [|done|exact He|]; [lia|].
      iIntros "Hsh". wp_ret.
      iApply "HΦ". { iPureIntro. by exists k, es, e. }
      simpl. iExists st, A. iFrame. done.
    - (* set *)
      destruct Hpre as (Hw & k & es & -> & Hi). iDestruct "HR" as (st A -> Hd) "(Hsh & Hc & %Hes & %HF & Hel & Hz)".
      iDestruct (ap_facts _ _ P with "Hsh") as %(_ & _ & _ & _ & _ & _ & Hk). specialize (Hk Hw). subst k.
      destruct (lookup_lt_is_Some_2 es (Z.to_nat i)) as [e He]; [lia|].
      assert (Hl : length (el_vals e) = 1%nat) by (by eapply Forall_lookup in He; [|exact HF]).
      destruct e as [p vs]. simpl in Hl. destruct vs as [|v0 [|]]; try done.
      rewrite /astep (ap_set _ _ P) //. wp_bind. wp_bind. iApply (shell_ref with "Hsh"); [|done|exact He|]; [lia|].
      iIntros "Hsh". simpl. iDestruct (elem_acc with "Hel") as "[He Hel]"; [done|]. simpl.
      rewrite /elemP. rewrite Hw. rewrite big_sepL_singleton Z.add_0_r.
      iApply (wp_store with "He"); [by right; eexists|]. iIntros "He". wp_ret.
      iApply "HΦ". { iPureIntro. by exists es, (Elt p [v0]). }
      destruct (update_facts 1 es A (Z.to_nat i) _ [v] He eq_refl Hes HF) as [Hes' HF'].
      simpl in *. iExists st, A. rewrite insert_length. iFrame "Hsh Hc Hz". iSplit; [done|]. iSplit; [done|].
      iSplit; [done|]. iSplit; [done|]. iSpecialize ("Hel" $! [v]). iApply "Hel". simpl. rewrite Z.add_0_r. by iFrame.
    - (* get *)
      destruct Hpre as (Hw & k & es & -> & Hi). iDestruct "HR" as (st A -> Hd) "(Hsh & Hc & %Hes & %HF & Hel & Hz)".
      iDestruct (ap_facts _ _ P with "Hsh") as %(_ & _ & _ & _ & _ & _ & Hk). specialize (Hk Hw). subst k.
      destruct (lookup_lt_is_Some_2 es (Z.to_nat i)) as [e He]; [lia|].
      assert (Hl : length (el_vals e) = 1%nat) by (by eapply Forall_lookup in He; [|exact HF]).
      destruct e as [p vs]. simpl in Hl. destruct vs as [|v0 [|]]; try done.
      rewrite /astep (ap_get _ _ P) //. wp_bind. wp_bind. iApply (shell_ref with "Hsh"); [|done|exact He|]; [lia|].
      iIntros "Hsh". simpl. iDestruct (big_sepL_lookup_acc with "Hel") as "[He Hel]"; [done|]. simpl.
      rewrite /elemP. rewrite Hw. simpl. rewrite Z.add_0_r. iDestruct "He" as "[He _]".
      iApply (wp_load with "He"). iIntros "He". wp_ret.
      iApply "HΦ". { iPureIntro. by exists 1%nat, es, p, v0. }
      simpl. iExists st, A. iFrame "Hsh Hc Hz". iSplit; [done|]. iSplit; [done|].
      iSplit; [done|]. iSplit; [done|]. iApply "Hel". by iFrame.
    - (* insert *)
      destruct Hpre as (Hw & [k es] & ->). iDestruct "HR" as (st A -> Hd) "(Hsh & Hc & %Hes & %HF & Hel & Hz)".
      iDestruct (ap_facts _ _ P with "Hsh") as %(Hle & Hlt & Hsz & _ & _ & _ & Hk). specialize (Hk Hw). subst k.
      pose proof (ap_max _ _ P) as Hmax.
      assert (H61 : Z.of_nat (length es) < 2 ^ 61).
      { rewrite /stride Hw /= in Hlt. change (2 ^ 64) with (8 * 2 ^ 61) in Hlt. lia. }
      assert (Ha : add64 (ay_size T st) 1 = Z.of_nat (length es) + 1).
      { rewrite /add64 Hsz Z.mod_small //. lia. }
      rewrite /astep (ap_insert _ _ P) // Ha. wp_bind. wp_bind. iApply (wp_grow_es with "Hsh Hc Hel Hz"); [done|lia|done..|].
      iIntros (st' A' own' news Hsub Hd' [Hzn Hzv] Hes' HF' Hwf) "Hsh Hc Hel Hz".
      rewrite Z.max_r in Hzn; [|lia].
      destruct news as [|[p vs] [|]]; [simpl in Hzn; lia| |simpl in Hzn; lia].
      inversion_clear Hzv as [|?? Hvs _]. simpl in Hvs. subst vs. simpl.
      assert (He : (es ++ [Elt p [0]]) !! length es = Some (Elt p [0])) by by apply list_lookup_middle.
      wp_bind. rewrite (ap_set _ _ P) // Hsz. wp_bind. iApply (shell_ref with "Hsh"); [done|done|exact He|].
      iIntros "Hsh". simpl. iDestruct (elem_acc with "Hel") as "[He Hel]"; [done|]. simpl.
      rewrite /elemP. rewrite Hw. simpl. rewrite Z.add_0_r. iDestruct "He" as "[He _]".
      iApply (wp_store with "He"); [by right; eexists|]. iIntros "He". wp_ret. wp_ret.
      destruct (update_facts 1 _ A' (length es) _ [v] He eq_refl Hes' HF') as [Hes'' HF''].
      assert (Hins : <[length es := Elt p [v]]> (es ++ [Elt p [0]]) = es ++ [Elt p [v]]) by by rewrite insert_app_r_alt // Nat.sub_diag.
      simpl in *. rewrite Hins in Hes'' HF''.
      iDestruct (ap_facts _ _ P with "Hsh") as %(_ & _ & _ & _ & _ & Haf & _).
      assert (Hll : length (es ++ [Elt p [0]]) = length (es ++ [Elt p [v]])) by by rewrite !app_length.
      rewrite Hll in Hes'' |- *.
      iApply "HΦ".
      { iPureIntro. split; [done|]. exists es, p, own'. split; [done|]. split; [done|]. split; [done|].
        pose proof (afacts_awf _ _ _ _ _ Hd' Haf Hes'' HF'') as Hwf2. rewrite Hw in Hwf2. exact Hwf2. }
      simpl. iExists st', A'. iFrame "Hsh Hc Hz". iSplit; [done|]. iSplit; [done|].
      iSplit; [done|]. iSplit; [done|]. iSpecialize ("Hel" $! [v]). rewrite Hins. iApply "Hel". simpl. rewrite Z.add_0_r. by iFrame.
    - (* read *)
      destruct Hpre as (k & es & e & j & -> & Hin & Hj & ->). iDestruct "HR" as (st A -> Hd) "(Hsh & Hc & %Hes & %HF & Hel & Hz)".
      apply elem_of_list_lookup in Hin as [i Hi]. destruct (lookup_lt_is_Some_2 _ _ Hj) as [v Hv].
      iDestruct (big_sepL_lookup_acc with "Hel") as "[He Hel]"; [done|].
      iDestruct (big_sepL_lookup_acc with "He") as "[Hcell He]"; [done|].
      rewrite /astep. wp_bind. iApply (wp_wand _ (λ z, ⌜z = v⌝ ∗ el_cell w e j ↦ unit_cell w v)%I with "[Hcell]").
      { rewrite /el_cell. destruct w; simpl; [iApply (wp_load with "Hcell")|iApply (wp_loadb with "Hcell")]; by iIntros "$". }
      iIntros (z) "[-> Hcell]". wp_ret. iApply "HΦ".
      { iPureIntro. exists k, es, e, j, v. split_and!; try done. by eapply elem_of_list_lookup_2. }
      simpl. iExists st, A. iFrame "Hsh Hc Hz". iSplit; [done|]. iSplit; [done|].
      iSplit; [done|]. iSplit; [done|]. iApply "Hel". by iApply "He".
    - (* write *)
      destruct Hpre as (k & es & e & j & -> & Hin & Hj & ->). iDestruct "HR" as (st A -> Hd) "(Hsh & Hc & %Hes & %HF & Hel & Hz)".
      apply elem_of_list_lookup in Hin as [i Hi]. destruct (lookup_lt_is_Some_2 _ _ Hj) as [v0 Hv].
      iDestruct (elem_acc with "Hel") as "[He Hel]"; [done|].
      iDestruct (big_sepL_insert_acc with "He") as "[Hcell He]"; [done|].
      rewrite /astep. wp_bind. iApply (wp_wand _ (λ _, el_cell w e j ↦ unit_cell w v)%I with "[Hcell]").
      { rewrite /el_cell. destruct w; simpl.
        - iApply (wp_store with "Hcell"); [by right; eexists|]; by iIntros "$".
        - iApply (wp_storeb with "Hcell"); by iIntros "$". }
      iIntros (z) "Hcell". wp_ret. iApply "HΦ".
      { iPureIntro. exists k, es, i, e, j. split_and!; try done. }
      destruct (update_facts k es A i e (<[j := v]> (el_vals e)) Hi (insert_length _ _ _) Hes HF) as [Hes' HF'].
      simpl. iExists st, A. rewrite insert_length. iFrame "Hsh Hc Hz". iSplit; [done|]. iSplit; [done|].
      iSplit; [done|]. iSplit; [done|]. iApply "Hel". by iApply "He".
    - (* done *)
      destruct Hpre as [[k es] ->]. iDestruct "HR" as (st A -> Hd) "(Hsh & Hc & %Hes & %HF & Hel & Hz)".
      rewrite /astep. wp_bind. iApply (ap_done _ _ P with "Hsh [Hel Hz] Hc"); [done| |].
      { rewrite -{2}(take_drop (length es) A) big_sepL_app. iSplitL "Hel".
        - rewrite -Hes big_sepL_fmap. iApply (big_sepL_mono with "Hel"). iIntros (i e Hi) "He".
          iExists _. iFrame "He". iPureIntro. by eapply Forall_lookup in Hi; [|exact HF].
        - rewrite /zeros. iApply (big_sepL_mono with "Hz"). iIntros (i e Hi) "He".
          iExists _. iFrame "He". iPureIntro. apply replicate_length. }
      iIntros "Hc". wp_ret. iApply "HΦ". { iPureIntro. done. } simpl. by iFrame.
  Qed.
End array_hist.

Lemma array_history T inv live m c :
  (∀ `{!memG}, memG_env → array_proof T inv) →
  heap_live m live → allowed (apre T) (apost T) (astate0 live) c →
  safe (run (astep T) None c m) (λ r m', array_end T inv live r.1 r.2 m' ∧ unchanged_outside [HCTL] m m').
Proof.
  intros Hproof (h & Hh & <-) Ha.
  assert (Hok : client_ok 4 ∅ [HCTL] m).
  { split; [apply map_Forall_empty|]. split; [apply NoDup_singleton|]. intros a Ha'. by apply elem_of_nil in Ha'. }
  pose proof (client_adequacy True (run (astep T) None c) 4 ∅ [HCTL] m
    (λ r m', array_end T inv (hc_live h) r.1 r.2 m') Hok) as Had.
  assert (Hgoal : match run (astep T) None c m with
    | Ok v m' => array_end T inv (hc_live h) v.1 v.2 m' ∧ unchanged_outside ([HCTL] ++ objs_cells ∅) m m'
    | Env _ => True | _ => False end); [|exact Hgoal].
  apply Had.
  { intros a Ha'. set_unfold in Ha'. destruct Ha' as [->|[]]; eauto. }
  clear Had. intros HG HE _.
  assert (Henv : memG_env) by (rewrite HE; done).
  pose proof (Hproof HG Henv) as P.
  iIntros "(Hc & _) _".
  iApply (wp_run _ _ _ (AR T inv P) with "[Hc]").
  - intros. iIntros "HR HΦ". by iApply (wp_astep T inv P with "HR HΦ").
  - exact Ha.
  - rewrite /AR /=. iSplit; [done|]. iSplit; [done|].
    iDestruct "Hc" as (c0 Hc0) "Hc". simplify_eq. iExists (hc_oracle h), (hc_next h). by destruct h.
  - iIntros (cs tr s' Hcor) "HR". iIntros (m') "Hm". rewrite /array_end /AR /=.
    destruct s' as [arr own live]. simpl. destruct arr as [[k es]|].
    + iDestruct "HR" as (st A -> Hd) "(Hsh & (%o & %n & Hc) & %Hes & %HF & Hel & Hz)".
      iDestruct (memI_lookup with "Hm Hc") as %Hl.
      iDestruct (ap_facts _ _ P with "Hsh") as %(_ & _ & _ & _ & Hinv & Haf & _).
      iAssert (⌜∀ e j v, e ∈ es → el_vals e !! j = Some v → m' !! el_cell (ay_words T) e j = Some (unit_cell (ay_words T) v)⌝)%I as %Hmem.
      { iIntros (e j v [i Hi]%elem_of_list_lookup Hj).
        iDestruct (big_sepL_lookup with "Hel") as "He"; [done|].
        iDestruct (big_sepL_lookup with "He") as "He"; [done|]. iApply (memI_lookup with "Hm He"). }
      iPureIntro. exists (AState (Some (k, es)) own live). split; [exact Hcor|]. simpl. split; [by eexists|]. split; [done|].
      split; [by exists st|]. split; [|done]. by eapply afacts_awf.
    + iDestruct "HR" as "(-> & -> & (%o & %n & Hc))". iDestruct (memI_lookup with "Hm Hc") as %Hl.
      iPureIntro. eexists. split; [exact Hcor|]. simpl. split; [|split; [apply map_disjoint_empty_l|done]].
      eexists. split; [done|]. simpl. by rewrite left_id_L.
Qed.
