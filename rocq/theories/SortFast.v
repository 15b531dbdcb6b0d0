(** * Sorting lists that are already in order, or in strictly reverse order:
    number of comparisons and result. *)
From Verif Require Export ListHist.
Global Open Scope Z_scope.

(** Number of buckets in use *)
Definition used (segs : list (list elem)) : nat := length (filter (λ s, s ≠ []) segs).
Lemma used_nil segs : used ([] :: segs) = used segs.
Proof. by rewrite /used filter_cons_False; [|auto]. Qed.
Lemma used_cons s segs : s ≠ [] → used (s :: segs) = S (used segs).
Proof. intros H. by rewrite /used filter_cons_True. Qed.
Lemma used_replicate k segs : used (replicate k [] ++ segs) = used segs.
Proof. induction k; [done|]. simpl. by rewrite used_nil. Qed.

Section fast.
  Context (c : Z → Z → Z).
  Notation f := (λ _ : clog, c).

  (** [w] comparisons for each merge; [glue b cur] is the result of merging. *)
  Context (w : nat) (glue : list elem → list elem → list elem).
  Hypothesis glue_ne : ∀ b cur, b ≠ [] → glue b cur ≠ [].
  Hypothesis glue_assoc : ∀ x y z, glue (glue x y) z = glue x (glue y z).
  Hypothesis glue_nil_l : ∀ x, glue [] x = x.
  Hypothesis glue_nil_r : ∀ x, glue x [] = x.
  (** [ok xs]: [xs] is (part of) the list in the order in which it is found *)
  Variable ok : list elem → Prop.
  Hypothesis ok_l : ∀ x y, ok (glue x y) → ok x.
  Hypothesis ok_r : ∀ x y, ok (glue x y) → ok y.
  Hypothesis merge_ok : ∀ log b cur log' r, mrgd f log b cur log' r → ok (glue b cur) →
    r = glue b cur ∧ length log' = (length log + w)%nat.

  Fixpoint all (segs : list (list elem)) : list elem :=
    match segs with [] => [] | s :: segs => glue (all segs) s end.
  Fixpoint line (xs : list elem) : list elem :=
    match xs with [] => [] | x :: xs => glue [x] (line xs) end.

  Lemma addc_fast log cur segs log' segs' : addc f log cur segs log' segs' → cur ≠ [] → ok (glue (all segs) cur) →
    all segs' = glue (all segs) cur ∧ (length log' + w * used segs' = length log + w * (used segs + 1))%nat.
  Proof.
    induction 1 as [log cur|log cur segs|log cur b segs log1 r log' segs' Hb Hm Ha IH]; intros Hcur Hok; simpl in *.
    - by rewrite used_cons.
    - rewrite glue_nil_r used_cons // used_nil. split; [done|]. lia.
    - rewrite glue_assoc in Hok. destruct (merge_ok _ _ _ _ _ Hm (ok_r _ _ Hok)) as [-> Hl].
      destruct IH as [H1 H2]; [by apply glue_ne|done|].
      rewrite glue_nil_r glue_assoc used_nil used_cons //. split; [done|]. lia.
  Qed.
  Lemma adds_fast log xs segs log' segs' : adds f log xs segs log' segs' → ok (glue (all segs) (line xs)) →
    all segs' = glue (all segs) (line xs) ∧ (length log' + w * used segs' = length log + w * (used segs + length xs))%nat.
  Proof.
    induction 1 as [log segs|log x xs segs log1 segs1 log' segs' Ha Hs IH]; intros Hok; simpl in *.
    - rewrite glue_nil_r. split; [done|]. lia.
    - rewrite -glue_assoc in Hok. destruct (addc_fast _ _ _ _ _ Ha ltac:(done) (ok_l _ _ Hok)) as [H1 H2].
      rewrite -H1 in Hok. destruct (IH Hok) as [H3 H4]. rewrite H3 H1 glue_assoc. split; [done|]. lia.
  Qed.
  Lemma finm_fast log cur segs log' r : finm f log cur segs log' r → ok (glue (all segs) cur) →
    r = glue (all segs) cur ∧ (length log' = length log + w * used segs)%nat.
  Proof.
    induction 1 as [log cur|log cur segs log' r Hf IH|log cur b segs log1 r log' r' Hb Hm Hf IH]; intros Hok; simpl in *.
    - rewrite glue_nil_l. split; [done|]. change (used []) with 0%nat. lia.
    - rewrite glue_nil_r in Hok |- *. rewrite used_nil. auto.
    - rewrite glue_assoc in Hok. destruct (merge_ok _ _ _ _ _ Hm (ok_r _ _ Hok)) as [-> Hl].
      destruct (IH Hok) as [H1 H2]. rewrite glue_assoc used_cons //. split; [done|]. lia.
  Qed.
  Lemma all_replicate k cur segs : all (replicate k [] ++ cur :: segs) = glue (all segs) cur.
  Proof. induction k; simpl; [done|]. by rewrite glue_nil_r. Qed.
  Lemma msort_fast log xs log' r : msort f log xs log' r → ok (line xs) →
    r = line xs ∧ (length log' = length log + w * (length xs - 1))%nat.
  Proof.
    destruct 1 as [log|log xs log1 k cur segs log' r Hx Ha Hcur Hf]; intros Hok; [simpl; split; [done|lia]|].
    destruct (adds_fast _ _ _ _ _ Ha) as [H1 H2]; [by rewrite /= glue_nil_l|]. simpl in *.
    rewrite glue_nil_l all_replicate in H1. rewrite used_replicate used_cons // in H2.
    destruct (finm_fast _ _ _ _ _ Hf) as [-> H3]; [by rewrite H1|].
    split; [done|]. rewrite H3. destruct xs; [done|]. simpl in *. change (used []) with 0%nat in H2.
    rewrite Nat.sub_0_r. nia.
  Qed.
End fast.

Section orders.
  Context (c : Z → Z → Z).
  Notation f := (λ _ : clog, c).

  Lemma line_app xs : line app xs = xs.
  Proof. induction xs; [done|]. simpl. by rewrite IHxs. Qed.
  Lemma line_flip xs : line (λ b cur, cur ++ b) xs = reverse xs.
  Proof. induction xs; [done|]. simpl. by rewrite IHxs reverse_cons. Qed.

  Lemma StronglySorted_app_inv {A} (R : A → A → Prop) (x y : list A) : StronglySorted R (x ++ y) →
    StronglySorted R x ∧ StronglySorted R y ∧ ∀ a b, a ∈ x → b ∈ y → R a b.
  Proof.
    induction x as [|a x IH]; simpl; intros Hs.
    - split; [constructor|]. split; [done|]. by intros ? ? ?%elem_of_nil.
    - apply StronglySorted_inv in Hs as [Hs Ha]. destruct (IH Hs) as (H1 & H2 & H3). apply Forall_app in Ha as [Ha1 Ha2].
      split; [by constructor|]. split; [done|]. intros a' b [->|Hin]%elem_of_cons Hb; [|auto]. rewrite Forall_forall in Ha2. auto.
  Qed.

  Lemma msort_ascending log xs log' r : msort f log xs log' r → StronglySorted (λ x y, c (e_d x) (e_d y) ≤ 0) xs →
    r = xs ∧ (length log' = length log + (length xs - 1))%nat.
  Proof.
    intros Hm Hs. rewrite -{1}(line_app xs).
    destruct (msort_fast c 1 app) with (ok := StronglySorted (λ x y, c (e_d x) (e_d y) ≤ 0)) (log := log) (xs := xs) (log' := log') (r := r)
      as [H1 H2]; try done.
    - intros b cur Hb. by destruct b.
    - intros. by rewrite assoc.
    - intros. by rewrite app_nil_r.
    - intros x y Hxy. by apply StronglySorted_app_inv in Hxy as (? & _ & _).
    - intros x y Hxy. by apply StronglySorted_app_inv in Hxy as (_ & ? & _).
    - clear. intros log b cur log' r Hm Hs. apply StronglySorted_app_inv in Hs as (_ & _ & Hs).
      destruct Hm as [log xs xl y ys Hf|log x xs xs' xl y ys ys' yl log1 Hxe Hye Hf1 Hl1 Hf2
        |log x xs xs' xl y ys ys' yl log1 log' r Hxe Hye Hf1 Hl1 Hf2 Hm].
      + rewrite app_length. done.
      + exfalso. specialize (Hs xl y). rewrite Hxe in Hs. specialize (Hs ltac:(set_solver) ltac:(set_solver)). lia.
      + exfalso. specialize (Hs xl y). rewrite Hxe in Hs. specialize (Hs ltac:(set_solver) ltac:(set_solver)). lia.
    - by rewrite line_app.
    - split; [done|]. lia.
  Qed.

  Lemma msort_descending log xs log' r : msort f log xs log' r →
    StronglySorted (λ x y, c (e_d x) (e_d y) > 0 ∧ c (e_d y) (e_d x) < 0) xs →
    r = reverse xs ∧ (length log' = length log + 2 * (length xs - 1))%nat.
  Proof.
    intros Hm Hs. rewrite -(line_flip xs).
    set (R := λ x y : elem, c (e_d x) (e_d y) > 0 ∧ c (e_d y) (e_d x) < 0) in *.
    destruct (msort_fast c 2 (λ b cur, cur ++ b)) with (ok := λ xs, StronglySorted R (reverse xs)) (log := log) (xs := xs) (log' := log') (r := r)
      as [H1 H2]; try done.
    - intros b cur Hb. by destruct cur.
    - intros. by rewrite assoc.
    - intros. by rewrite app_nil_r.
    - intros x y Hxy. rewrite reverse_app in Hxy. by apply StronglySorted_app_inv in Hxy as (? & _ & _).
    - intros x y Hxy. rewrite reverse_app in Hxy. by apply StronglySorted_app_inv in Hxy as (_ & ? & _).
    - clear -R. intros log b cur log' r Hm Hs. rewrite reverse_app in Hs. apply StronglySorted_app_inv in Hs as (_ & _ & Hs).
      destruct Hm as [log xs xl y ys Hf|log x xs xs' xl y ys ys' yl log1 Hxe Hye Hf1 Hl1 Hf2
        |log x xs xs' xl y ys ys' yl log1 log' r Hxe Hye Hf1 Hl1 Hf2 Hm].
      + exfalso. destruct (Hs xl y) as [? _]; [rewrite elem_of_reverse; set_solver..|]. lia.
      + subst log1. rewrite !app_length /=. split; [done|]. lia.
      + exfalso. destruct (Hs x yl) as [_ ?]; [rewrite elem_of_reverse ?Hye; set_solver..|]. lia.
    - by rewrite line_flip reverse_involutive.
  Qed.
End orders.

(** ** At the level of the list *)
Lemma StronglySorted_fmap {A B} (R : B → B → Prop) (h : A → B) (l : list A) :
  StronglySorted R (h <$> l) → StronglySorted (λ x y, R (h x) (h y)) l.
Proof.
  induction l as [|a l IH]; [constructor|]. rewrite fmap_cons. intros [Hs Ha]%StronglySorted_inv.
  constructor; [auto|]. rewrite Forall_fmap in Ha. done.
Qed.
Lemma sort_in_order m K l t xs f c fuel :
  list_rep m l xs → m !! t = Some (Tape []) → (length xs ≤ fuel)%nat →
  separate K (t :: l :: (xs.*1 ≫= node_cells 4)) m →
  (∀ a b, a ∈ xs.*2 → b ∈ xs.*2 → reads K f c a b) → sorted_by c xs →
  succeeds (list_sort fuel l (tape_cmp t (λ _, f)) m) (λ _ m',
    list_rep m' l xs ∧ ∃ calls, m' !! t = Some (Tape calls) ∧ length calls = (2 * (length xs - 1))%nat).
Proof.
  intros Hr Ht Hf HK Hrd Hc. eapply succeeds_mono; [by apply (sort_rep m K l t xs (λ _, f) (λ _, c))|]. simpl.
  intros _ m' (ys & calls & H1 & H2 & H3 & H4 & H5 & H6 & es & log & r & Hm & -> & -> & ->).
  destruct (msort_ascending c _ _ _ _ Hm) as [-> Hl]; [exact (StronglySorted_fmap _ pd _ Hc)|].
  split; [done|]. exists (flat log). split; [done|]. rewrite flat_length Hl fmap_length /=. lia.
Qed.
Lemma sort_reversed m K l t xs f c fuel :
  list_rep m l xs → m !! t = Some (Tape []) → (length xs ≤ fuel)%nat →
  separate K (t :: l :: (xs.*1 ≫= node_cells 4)) m →
  (∀ a b, a ∈ xs.*2 → b ∈ xs.*2 → reads K f c a b) →
  StronglySorted (λ x y, c x.2 y.2 > 0 ∧ c y.2 x.2 < 0) xs →
  succeeds (list_sort fuel l (tape_cmp t (λ _, f)) m) (λ _ m',
    list_rep m' l (reverse xs) ∧ ∃ calls, m' !! t = Some (Tape calls) ∧ length calls = (4 * (length xs - 1))%nat).
Proof.
  intros Hr Ht Hf HK Hrd Hc. eapply succeeds_mono; [by apply (sort_rep m K l t xs (λ _, f) (λ _, c))|]. simpl.
  intros _ m' (ys & calls & H1 & H2 & H3 & H4 & H5 & H6 & es & log & r & Hm & -> & -> & ->).
  destruct (msort_descending c _ _ _ _ Hm) as [-> Hl]; [exact (StronglySorted_fmap _ pd _ Hc)|].
  rewrite -fmap_reverse. split; [done|]. exists (flat log). split; [done|]. rewrite flat_length Hl fmap_length /=. lia.
Qed.
