(** * Rebalancing on pure trees: termination and the invariant. *)
From Verif Require Export TreeSpec.
Global Open Scope Z_scope.

(** ** Rebalancing of a pure tree, step by step like the code.  The second
    result is the number of calls of [bal]. *)
Definition idx (t : tree) : Z := match t with Leaf => 0 | Node _ _ i _ _ => i end.
Definition small (t : tree) : Prop := 0 ≤ idx t < 2 ^ 62.
Global Instance small_dec t : Decision (small t). Proof. unfold small. apply _. Defined.
Global Typeclasses Opaque small.

Definition delta (t : tree) : option Z :=
  match t with
  | Leaf => None
  | Node _ _ _ l r => if decide (small l ∧ small r) then Some (idx l - idx r) else None
  end.

Definition rotl (bal : tree → option (tree * Z)) (t : tree) : option (tree * Z) :=
  match t with
  | Node p d i l (Node q e j rl rr) =>
      b ← bal (Node p d i l rl); r ← bal (Node q e j b.1 rr); Some (r.1, b.2 + r.2)
  | _ => None
  end.
Definition rotr (bal : tree → option (tree * Z)) (t : tree) : option (tree * Z) :=
  match t with
  | Node p d i (Node q e j ll lr) r =>
      b ← bal (Node p d i lr r); r ← bal (Node q e j ll b.1); Some (r.1, b.2 + r.2)
  | _ => None
  end.

Definition bal_step (bal : tree → option (tree * Z)) (t : tree) : option (tree * Z) :=
  match t with
  | Leaf => None
  | Node p d i l r =>
      x ← delta t;
      if decide (x < -1) then
        y ← delta r;
        u ← (if decide (y > 0) then rotr bal r else Some (r, 0));
        v ← rotl bal (Node p d i l u.1); Some (v.1, 1 + u.2 + v.2)
      else if decide (x > 1) then
        y ← delta l;
        u ← (if decide (y < 0) then rotl bal l else Some (l, 0));
        v ← rotr bal (Node p d i u.1 r); Some (v.1, 1 + u.2 + v.2)
      else Some (Node p d (1 + Z.max (idx l) (idx r)) l r, 1)
  end.
Fixpoint bal (f : nat) (t : tree) : option (tree * Z) :=
  match f with O => None | S f => bal_step (bal f) t end.

(** More fuel gives the same result. *)
Lemma rot_mono (b b' : tree → option (tree * Z)) : (∀ t x, b t = Some x → b' t = Some x) →
  (∀ t x, rotl b t = Some x → rotl b' t = Some x) ∧ (∀ t x, rotr b t = Some x → rotr b' t = Some x).
Proof.
  intros Hb. split; intros t x H.
  - destruct t as [|p d i l [|q e j rl rr]]; try done. cbn [rotl] in *.
    apply bind_Some in H as (t1 & H1 & (t2 & H2 & [= <-])%bind_Some). rewrite (Hb _ _ H1) /= (Hb _ _ H2) //.
  - destruct t as [|p d i [|q e j ll lr] r]; try done. cbn [rotr] in *.
    apply bind_Some in H as (t1 & H1 & (t2 & H2 & [= <-])%bind_Some). rewrite (Hb _ _ H1) /= (Hb _ _ H2) //.
Qed.
Lemma bal_S f : ∀ t x, bal f t = Some x → bal (S f) t = Some x.
Proof.
  induction f as [|f IH]; [done|]. intros t z H. destruct (rot_mono _ _ IH) as [Hl Hr].
  change (bal (S (S f)) t) with (bal_step (bal (S f)) t). change (bal (S f) t) with (bal_step (bal f) t) in H.
  destruct t as [|p d i l r]; [done|]. unfold bal_step in *. apply bind_Some in H as (x & -> & H). cbn [mbind option_bind].
  destruct (decide (x < -1)); [|destruct (decide (x > 1)); [|done]].
  - apply bind_Some in H as (y & -> & H). cbn [mbind option_bind]. apply bind_Some in H as (u & Hu & (v & Hv & [= <-])%bind_Some).
    destruct (decide (y > 0)); [rewrite (Hr _ _ Hu)|rewrite Hu]; cbn [mbind option_bind]; by rewrite (Hl _ _ Hv).
  - apply bind_Some in H as (y & -> & H). cbn [mbind option_bind]. apply bind_Some in H as (u & Hu & (v & Hv & [= <-])%bind_Some).
    destruct (decide (y < 0)); [rewrite (Hl _ _ Hu)|rewrite Hu]; cbn [mbind option_bind]; by rewrite (Hr _ _ Hv).
Qed.
Lemma bal_mono f f' t x : (f ≤ f')%nat → bal f t = Some x → bal f' t = Some x.
Proof. induction 1 as [|f' _ IH]; [done|]. intros H. by apply bal_S, IH. Qed.

(** Left and right are interchangeable. *)
Fixpoint mirror (t : tree) : tree :=
  match t with Leaf => Leaf | Node p d i l r => Node p d i (mirror r) (mirror l) end.
Lemma mirror_mirror t : mirror (mirror t) = t.
Proof. induction t; simpl; congruence. Qed.
Lemma mirror_idx t : idx (mirror t) = idx t.
Proof. by destruct t. Qed.
Lemma mirror_inorder t : inorder (mirror t) = reverse (inorder t).
Proof. induction t as [|p d i l IHl r IHr]; simpl; [done|]. rewrite IHl IHr reverse_app reverse_cons -app_assoc //. Qed.
Lemma mirror_small t : small (mirror t) ↔ small t.
Proof. by rewrite /small mirror_idx. Qed.
Lemma mirror_delta t : delta (mirror t) = Z.opp <$> delta t.
Proof.
  destruct t as [|p d i l r]; [done|]. cbn [mirror delta]. rewrite !mirror_idx.
  assert (Hiff : small (mirror r) ∧ small (mirror l) ↔ small l ∧ small r) by (rewrite !mirror_small; tauto).
  destruct (decide (small (mirror r) ∧ small (mirror l))) as [H1|H1], (decide (small l ∧ small r)) as [H2|H2].
  - simpl. f_equal. lia.
  - by destruct H2; apply Hiff.
  - by destruct H1; apply Hiff.
  - done.
Qed.
Definition mirror1 (x : tree * Z) : tree * Z := (mirror x.1, x.2).
Lemma mirror_rot (b : tree → option (tree * Z)) : (∀ t, b (mirror t) = mirror1 <$> b t) →
  (∀ t, rotl b (mirror t) = mirror1 <$> rotr b t) ∧ (∀ t, rotr b (mirror t) = mirror1 <$> rotl b t).
Proof.
  intros Hb. split; intros t.
  - destruct t as [|p d i [|q e j ll lr] r]; try done. cbn [rotl rotr mirror].
    change (Node p d i (mirror r) (mirror lr)) with (mirror (Node p d i lr r)). rewrite Hb.
    destruct (b (Node p d i lr r)) as [[t1 n1]|]; [|done]. cbn [mbind option_bind fmap option_fmap option_map mirror1 fst snd].
    change (Node q e j (mirror t1) (mirror ll)) with (mirror (Node q e j ll t1)). rewrite Hb.
    by destruct (b (Node q e j ll t1)) as [[t2 n2]|].
  - destruct t as [|p d i l [|q e j rl rr]]; try done. cbn [rotl rotr mirror].
    change (Node p d i (mirror rl) (mirror l)) with (mirror (Node p d i l rl)). rewrite Hb.
    destruct (b (Node p d i l rl)) as [[t1 n1]|]; [|done]. cbn [mbind option_bind fmap option_fmap option_map mirror1 fst snd].
    change (Node q e j (mirror rr) (mirror t1)) with (mirror (Node q e j t1 rr)). rewrite Hb.
    by destruct (b (Node q e j t1 rr)) as [[t2 n2]|].
Qed.
Lemma bal_mirror f : ∀ t, bal f (mirror t) = mirror1 <$> bal f t.
Proof.
  induction f as [|f IH]; intros t; [done|]. destruct (mirror_rot _ IH) as [Hl Hr].
  destruct t as [|p d i l r]; [done|].
  assert (Hd : delta (mirror (Node p d i l r)) = Z.opp <$> delta (Node p d i l r)) by apply mirror_delta.
  cbn [bal bal_step mirror]. change (Node p d i (mirror r) (mirror l)) with (mirror (Node p d i l r)). rewrite Hd.
  destruct (delta (Node p d i l r)) as [x|]; [|done]. cbn [mbind option_bind fmap option_fmap option_map].
  rewrite !mirror_delta.
  destruct (decide (x < -1)).
  - destruct (decide (- x < -1)); [lia|]. destruct (decide (- x > 1)); [|lia].
    destruct (delta r) as [y|]; [|done]. cbn [mbind option_bind fmap option_fmap option_map].
    destruct (decide (y > 0)), (decide (- y < 0)); try lia.
    + rewrite Hl. destruct (rotr (bal f) r) as [[r' kk]|]; [|done]. cbn [mbind option_bind fmap option_fmap option_map mirror1 fst snd].
      change (Node p d i (mirror r') (mirror l)) with (mirror (Node p d i l r')). rewrite Hr.
      by destruct (rotl (bal f) (Node p d i l r')) as [[? ?]|].
    + cbn [mbind option_bind fst snd]. change (Node p d i (mirror r) (mirror l)) with (mirror (Node p d i l r)). rewrite Hr.
      by destruct (rotl (bal f) (Node p d i l r)) as [[? ?]|].
  - destruct (decide (x > 1)).
    + destruct (decide (- x < -1)); [|lia].
      destruct (delta l) as [y|]; [|done]. cbn [mbind option_bind fmap option_fmap option_map].
      destruct (decide (y < 0)), (decide (- y > 0)); try lia.
      * rewrite Hr. destruct (rotl (bal f) l) as [[l' kk]|]; [|done]. cbn [mbind option_bind fmap option_fmap option_map mirror1 fst snd].
        change (Node p d i (mirror r) (mirror l')) with (mirror (Node p d i l' r)). rewrite Hl.
        by destruct (rotr (bal f) (Node p d i l' r)) as [[? ?]|].
      * cbn [mbind option_bind fst snd]. change (Node p d i (mirror r) (mirror l)) with (mirror (Node p d i l r)). rewrite Hl.
        by destruct (rotr (bal f) (Node p d i l r)) as [[? ?]|].
    + destruct (decide (- x < -1)); [lia|]. destruct (decide (- x > 1)); [lia|]. simpl. rewrite !mirror_idx Z.max_comm //.
Qed.

(** ** The invariant: AVL with respect to the index *)
Fixpoint avl (t : tree) : Prop :=
  match t with
  | Leaf => True
  | Node _ _ i l r => avl l ∧ avl r ∧ -1 ≤ idx l - idx r ≤ 1 ∧
      (i = 1 + Z.max (idx l) (idx r) ∨ i = 0 ∧ l = Leaf ∧ r = Leaf)
  end.

Lemma avl_nonneg t : avl t → 0 ≤ idx t.
Proof.
  induction t as [|p d i l IHl r IHr]; simpl; [done|]. intros (Hl & Hr & _ & [->|[-> _]]); [|done].
  specialize (IHl Hl). lia.
Qed.
Lemma avl_pos t : avl t → 0 < idx t → ∃ p d l r, t = Node p d (1 + Z.max (idx l) (idx r)) l r ∧
  avl l ∧ avl r ∧ -1 ≤ idx l - idx r ≤ 1 ∧ 0 ≤ idx l ∧ 0 ≤ idx r.
Proof.
  destruct t as [|p d i l r]; simpl; [done|]. intros (Hl & Hr & Hd & [->|[-> _]]); [|done]. intros _.
  exists p, d, l, r. pose proof (avl_nonneg _ Hl). pose proof (avl_nonneg _ Hr). done.
Qed.
Lemma avl_mirror t : avl t → avl (mirror t).
Proof.
  induction t as [|p d i l IHl r IHr]; simpl; [done|]. rewrite !mirror_idx. intros (Hl & Hr & Hd & Hi).
  split; [auto|]. split; [auto|]. split; [lia|]. destruct Hi as [->|(-> & -> & ->)]; [left; lia|by right].
Qed.

Lemma delta_small p d i l r : small l → small r → delta (Node p d i l r) = Some (idx l - idx r).
Proof. intros Hl Hr. cbn [delta]. by destruct (decide (small l ∧ small r)) as [|[]]. Qed.
Lemma bal_flat f p d i l r : small l → small r → -1 ≤ idx l - idx r ≤ 1 →
  bal (S f) (Node p d i l r) = Some (Node p d (1 + Z.max (idx l) (idx r)) l r, 1).
Proof.
  intros Hl Hr Hd. cbn [bal bal_step]. rewrite delta_small //. cbn [mbind option_bind].
  destruct (decide (idx l - idx r < -1)); [lia|]. destruct (decide (idx l - idx r > 1)); [lia|]. done.
Qed.
Lemma bal_left f p d i l q e j rl rr : let r := Node q e j rl rr in
  small l → small r → small rl → small rr → idx l - idx r < -1 → idx rl - idx rr ≤ 0 →
  bal (S f) (Node p d i l r) = b ← bal f (Node p d i l rl); v ← bal f (Node q e j b.1 rr); Some (v.1, 1 + (b.2 + v.2)).
Proof.
  intros r Hl Hr Hrl Hrr Hd Hd2. cbn [bal bal_step]. rewrite !delta_small //. cbn [mbind option_bind].
  destruct (decide (idx l - idx r < -1)); [|lia]. destruct (decide (idx rl - idx rr > 0)); [lia|]. unfold r. cbn [mbind option_bind fst snd rotl].
  destruct (bal f (Node p d i l rl)) as [[t1 n1]|]; [|done]. cbn [mbind option_bind fst snd].
  destruct (bal f (Node q e j t1 rr)) as [[t2 n2]|]; [|done]. cbn [mbind option_bind fst snd]. done.
Qed.
Lemma bal_left2 f p d i l q e j rl rr : let r := Node q e j rl rr in
  small l → small r → small rl → small rr → idx l - idx r < -1 → idx rl - idx rr > 0 →
  bal (S f) (Node p d i l r) = u ← rotr (bal f) r; v ← rotl (bal f) (Node p d i l u.1); Some (v.1, 1 + u.2 + v.2).
Proof.
  intros r Hl Hr Hrl Hrr Hd Hd2. cbn [bal bal_step]. rewrite !delta_small //. cbn [mbind option_bind].
  destruct (decide (idx l - idx r < -1)); [|lia]. destruct (decide (idx rl - idx rr > 0)); [|lia]. done.
Qed.

Lemma bal_right2 f p d i q e j ll lr r : let l := Node q e j ll lr in
  small l → small r → small ll → small lr → idx l - idx r > 1 → idx ll - idx lr < 0 →
  bal (S f) (Node p d i l r) = u ← rotl (bal f) l; v ← rotr (bal f) (Node p d i u.1 r); Some (v.1, 1 + u.2 + v.2).
Proof.
  intros l Hl Hr Hll Hlr Hd Hd2. cbn [bal bal_step]. rewrite !delta_small //. cbn [mbind option_bind].
  destruct (decide (idx l - idx r < -1)); [lia|]. destruct (decide (idx l - idx r > 1)); [|lia].
  destruct (decide (idx ll - idx lr < 0)); [|lia]. done.
Qed.

(** The result of rebalancing [l], (p, d), [r] *)
Definition balanced (l : tree) (p d : Z) (r t' : tree) : Prop :=
  inorder t' = inorder l ++ (p, d) :: inorder r ∧ avl t' ∧
  Z.max (idx l) (idx r) ≤ idx t' ≤ Z.max (idx l) (idx r) + 1.

Lemma bal_flat_ok f p d i l r : avl l → avl r → Z.max (idx l) (idx r) < 2 ^ 62 → -1 ≤ idx l - idx r ≤ 1 →
  ∃ t', bal (S f) (Node p d i l r) = Some (t', 1) ∧ balanced l p d r t' ∧ idx t' = 1 + Z.max (idx l) (idx r).
Proof.
  intros Hl Hr Hs Hd. pose proof (avl_nonneg _ Hl). pose proof (avl_nonneg _ Hr).
  eexists. split; [apply bal_flat; [split; lia..|lia]|]. split; [|done].
  split; [done|]. split; [|simpl; lia]. simpl. split; [done|]. split; [done|]. split; [lia|by left].
Qed.

Ltac io_tac := simpl; repeat (rewrite -app_assoc; simpl); done.
Ltac tside := first [done | split; simpl; lia | simpl; lia].
Ltac avl_tac := simpl; repeat first [done | lia | match goal with |- _ ∧ _ => split | |- _ ∨ _ => left; lia end].
Ltac mb := cbn [mbind option_bind fst snd].

(** Rotating right a tree whose left side is higher by one: the result has the
    same height; either its right side is higher, or it is the tree itself. *)
Lemma rotr_ok f r : avl r → 2 ≤ idx r < 2 ^ 62 → ∀ q e j rl rr, r = Node q e j rl rr → idx rl - idx rr > 0 →
  ∃ r' n, rotr (bal (S (S f))) r = Some (r', n) ∧ 2 ≤ n ≤ 4 ∧ inorder r' = inorder r ∧ avl r' ∧ idx r' = idx r ∧
  ((∃ q' e' j' a c, r' = Node q' e' j' a c ∧ avl a ∧ avl c ∧ idx a = idx r - 2 ∧ idx c = idx r - 1) ∨
   (r' = r ∧ ∃ z g k a b, rl = Node z g k a b ∧ avl a ∧ avl b ∧ idx a = idx r - 3 ∧ idx b = idx r - 2)).
Proof.
  intros Hr Hs q e j rl rr -> Hd. simpl in Hr, Hs. destruct Hr as (Hrl & Hrr & Hdr & [->|(-> & _)]); [|lia].
  pose proof (avl_nonneg _ Hrr) as Hn.
  destruct (avl_pos rl Hrl ltac:(lia)) as (z & g & a & b & -> & Ha & Hb & Hab & Ha0 & Hb0).
  cbn [idx] in *. assert (∃ n, idx rr = n) as [n Hnn] by eauto.
  assert (Hmax : Z.max (idx a) (idx b) = n) by lia. rewrite Hmax Hnn in Hs; rewrite Hmax Hnn in Hdr; rewrite Hmax Hnn in Hd; rewrite Hmax Hnn.
  assert (Hj : 1 + Z.max (1 + n) n = n + 2) by lia. rewrite Hj in Hs |- *. clear Hj. cbn [rotr].
  assert (E1 : bal (S (S f)) (Node q e (n + 2) b rr) = Some (Node q e (1 + n) b rr, 1)).
  { rewrite -> bal_flat by tside. do 3 f_equal. lia. }
  rewrite E1. mb.
  destruct (decide (idx a = n)) as [Han|Han].
  - rewrite -> bal_flat by tside. mb. eexists _, _. split; [done|]. split; [lia|].
    split; [io_tac|]. split; [avl_tac|].
    split; [simpl; lia|]. left. eexists _, _, _, _, _. split; [done|]. split; [done|]. split; [avl_tac|simpl; lia].
  - assert (Hb2 : idx b = n) by lia. assert (Ha2 : idx a = n - 1) by lia.
    rewrite -> bal_left by tside.
    assert (E2 : bal (S f) (Node z g (1 + n) a b) = Some (Node z g (1 + n) a b, 1)).
    { rewrite -> bal_flat by tside. do 3 f_equal. lia. }
    rewrite E2. mb. rewrite -> bal_flat by tside. mb. eexists _, _. split; [done|]. split; [lia|].
    split; [done|]. split; [avl_tac|].
    split; [simpl; lia|]. right. simpl. split; [f_equal; lia|].
    eexists _, _, _, _, _. split; [done|]. split; [done|]. split; [done|]. lia.
Qed.

(** A difference of two *)
Lemma bal_two f p d i l r : avl l → avl r → idx r < 2 ^ 62 → idx r = idx l + 2 →
  ∃ t' n, bal (S (S (S f))) (Node p d i l r) = Some (t', n) ∧ balanced l p d r t' ∧ 3 ≤ n ≤ 11.
Proof.
  intros Hl Hr Hs Hd. pose proof (avl_nonneg _ Hl) as Hl0.
  destruct (avl_pos r Hr ltac:(lia)) as (q & e & rl & rr & Heq & Hrl & Hrr & Hdr & Hrl0 & Hrr0).
  pose proof Hs as Hs'. pose proof Hd as Hd'. rewrite Heq in Hs' Hd'. simpl in Hs', Hd'.
  destruct (decide (idx rl - idx rr > 0)) as [Hgt|Hle].
  - destruct (rotr_ok f r Hr ltac:(lia) _ _ _ _ _ Heq Hgt) as (r' & n & HE & Hn & Hin & Hr' & Hx & Hcase).
    rewrite {1}Heq. rewrite -> bal_left2 by tside. rewrite -Heq HE. mb.
    destruct Hcase as [(q' & e' & j' & a & c & -> & Ha & Hc & Hxa & Hxc)|(-> & z & g & k & a & b & Hrl' & Ha & Hb & Hxa & Hxb)].
    + cbn [rotl]. rewrite -> bal_flat by tside. mb.
      rewrite -> bal_flat by tside. mb. eexists _, _. split; [done|]. split; [|lia]. split.
      { simpl. simpl in Hin. rewrite -app_assoc /=. by rewrite Hin. }
      split; [avl_tac|simpl; lia].
    + rewrite Heq. cbn [rotl]. rewrite Heq /= in Hx, Hxa, Hxb. rewrite Heq in Hr. simpl in Hr. rewrite Hrl' in Hr Hgt Hdr Hd' Hs' Hxa Hxb |- *. simpl in Hr, Hgt, Hdr, Hd', Hs', Hxa, Hxb.
      rewrite -> bal_flat by tside. mb.
      pose proof (avl_nonneg _ Ha). pose proof (avl_nonneg _ Hb). assert (Hk : k = idx l + 1) by lia. assert (Hrk : idx rr = idx l) by lia.
      rewrite -> bal_right2 by tside. cbn [rotl].
      rewrite -> bal_flat by tside. mb. rewrite -> bal_flat by tside. mb. cbn [rotr].
      rewrite -> bal_flat by tside. mb. rewrite -> bal_flat by tside. mb.
      eexists _, _. split; [done|]. split; [|lia]. split; [io_tac|]. split; [avl_tac|simpl; lia].
  - rewrite Heq. rewrite -> bal_left by tside.
    rewrite -> bal_flat by tside. mb. rewrite -> bal_flat by tside. mb.
    eexists _, _. split; [done|]. split; [|lia]. split; [io_tac|]. split; [avl_tac|simpl; lia].
Qed.

(** The number of calls for a difference of heights [D] *)
Definition calls (D n : Z) : Prop := D + 1 ≤ 2 * n ∧ n ≤ 16 * D + 1.

(** Any difference: the right side is higher *)
Lemma bal_right_high D : ∀ f p d i l r, avl l → avl r → idx r < 2 ^ 62 → idx r = idx l + Z.of_nat D →
  ∃ t' n, bal (3 + D + f) (Node p d i l r) = Some (t', n) ∧ balanced l p d r t' ∧ calls (Z.of_nat D) n.
Proof.
  unfold calls. induction D as [D IH] using lt_wf_ind. intros f p d i l r Hl Hr Hs Hd.
  pose proof (avl_nonneg _ Hl) as Hl0.
  destruct D as [|[|[|D]]].
  - destruct (bal_flat_ok (2 + f) p d i l r Hl Hr ltac:(lia) ltac:(lia)) as (t' & ? & ? & _). exists t', 1. split; [done|]. split; [done|lia].
  - destruct (bal_flat_ok (3 + f) p d i l r Hl Hr ltac:(lia) ltac:(lia)) as (t' & ? & ? & _). exists t', 1. split; [done|]. split; [done|lia].
  - destruct (bal_two (2 + f) p d i l r Hl Hr ltac:(lia) ltac:(lia)) as (t' & n & ? & ? & ?). exists t', n. split; [done|]. split; [done|lia].
  - set (F := (3 + S (S D) + f)%nat). change (3 + S (S (S D)) + f)%nat with (S F).
    destruct (avl_pos r Hr ltac:(lia)) as (q & e & rl & rr & Heq & Hrl & Hrr & Hdr & Hrl0 & Hrr0).
    pose proof Hs as Hs'. pose proof Hd as Hd'. rewrite Heq in Hs' Hd'. simpl in Hs', Hd'.
    assert (Hrec : ∀ x, avl x → idx r - 2 ≤ idx x ≤ idx r - 1 →
      ∃ t1 n, bal F (Node p d i l x) = Some (t1, n) ∧ balanced l p d x t1 ∧
        Z.of_nat (S (S (S D))) - 1 ≤ 2 * n ∧ n ≤ 16 * (Z.of_nat (S (S (S D))) - 1) + 1).
    { intros x Hx Hix. destruct (IH (Z.to_nat (idx x - idx l)) ltac:(lia) 0%nat p d i l x Hl Hx ltac:(lia) ltac:(lia)) as (t1 & n & H1 & H2 & H3).
      exists t1, n. split; [|split; [done|lia]]. eapply bal_mono; [|exact H1]. unfold F. lia. }
    destruct (decide (idx rl - idx rr > 0)) as [Hgt|Hle].
    + destruct (rotr_ok (S (S (S (D + f)))) r Hr ltac:(lia) _ _ _ _ _ Heq Hgt) as (r' & n & HE & Hn & Hin & Hr' & Hx & Hcase).
      change (S (S (S (S (S (D + f)))))) with F in HE.
      rewrite {1}Heq. rewrite -> bal_left2 by tside. rewrite -Heq HE. mb.
      destruct Hcase as [(q' & e' & j' & a & c & -> & Ha & Hc & Hxa & Hxc)|(-> & z & g & k & a & b & Hrl' & Ha & Hb & Hxa & Hxb)].
      * cbn [rotl]. destruct (Hrec a Ha ltac:(lia)) as (t1 & n1 & -> & (Hi1 & Ht1 & Hx1) & Hn1). mb.
        destruct (bal_flat_ok (2 + S (S D) + f) q' e' j' t1 c Ht1 Hc ltac:(lia) ltac:(lia)) as (t2 & HE2 & (Hi2 & Ht2 & _) & Hx2).
        change (S (2 + S (S D) + f)) with F in HE2. rewrite HE2. mb.
        eexists t2, _. split; [done|]. split; [|lia]. split; [|split; [done|lia]].
        rewrite Hi2 Hi1 -Hin /= -app_assoc //.
      * rewrite Heq. cbn [rotl]. assert (Hrlx : idx rl = idx r - 1 ∧ idx rr = idx r - 2) by (rewrite Heq /=; lia).
        destruct (Hrec rl Hrl ltac:(lia)) as (t1 & n1 & -> & (Hi1 & Ht1 & Hx1) & Hn1). mb.
        assert (H2 : ∃ t2 n2, bal F (Node q e (1 + Z.max (idx rl) (idx rr)) t1 rr) = Some (t2, n2) ∧ inorder t2 = inorder t1 ++ (q, e) :: inorder rr ∧ avl t2 ∧ idx r ≤ idx t2 ≤ idx r + 1 ∧ 1 ≤ n2 ≤ 11).
        { destruct (decide (idx t1 = idx r)) as [Ht1r|Ht1r].
          - destruct (bal_two (D + f + 2) q e (1 + Z.max (idx rl) (idx rr)) (mirror rr) (mirror t1)) as (t2 & n2 & HE2 & (Hi2 & Ht2 & Hx2) & Hn2).
            { by apply avl_mirror. } { by apply avl_mirror. } { rewrite mirror_idx. lia. } { rewrite !mirror_idx. lia. }
            change (Node q e (1 + Z.max (idx rl) (idx rr)) (mirror rr) (mirror t1)) with (mirror (Node q e (1 + Z.max (idx rl) (idx rr)) t1 rr)) in HE2.
            rewrite bal_mirror in HE2. apply fmap_Some in HE2 as ([t2' n2'] & HE2 & [= -> ->]).
            exists t2', n2'. split; [eapply bal_mono; [|exact HE2]; unfold F; lia|]. rewrite !mirror_idx in Hx2. split; [|split; [|split]].
            + rewrite !mirror_inorder in Hi2. apply (f_equal reverse) in Hi2.
              rewrite reverse_involutive reverse_app reverse_cons !reverse_involutive -app_assoc // in Hi2.
            + rewrite -(mirror_mirror t2'). by apply avl_mirror.
            + lia.
            + lia.
          - destruct (bal_flat_ok (2 + S (S D) + f) q e (1 + Z.max (idx rl) (idx rr)) t1 rr Ht1 Hrr ltac:(lia) ltac:(lia)) as (t2 & HE2 & (Hi2 & Ht2 & _) & Hx2).
            exists t2, 1. split; [done|]. split; [done|]. split; [done|lia]. }
        destruct H2 as (t2 & n2 & HE2 & Hi2 & Ht2 & Hx2 & Hn2). rewrite HE2. mb. eexists t2, _. split; [done|]. split; [|lia]. split; [|split; [done|]].
        -- rewrite Hi2 Hi1 /= -app_assoc //.
        -- rewrite -Heq. lia.
    + rewrite Heq. rewrite -> bal_left by tside.
      assert (Hrrx : idx rr = idx r - 1 ∧ idx r - 2 ≤ idx rl) by (rewrite Heq /=; lia).
      assert (idx rl ≤ idx r - 1) by lia.
      destruct (Hrec rl Hrl ltac:(lia)) as (t1 & n1 & -> & (Hi1 & Ht1 & Hx1) & Hn1). mb.
      destruct (bal_flat_ok (2 + S (S D) + f) q e (1 + Z.max (idx rl) (idx rr)) t1 rr Ht1 Hrr ltac:(lia) ltac:(lia)) as (t2 & HE2 & (Hi2 & Ht2 & _) & Hx2).
      change (S (2 + S (S D) + f)) with F in HE2. rewrite HE2. mb.
      eexists t2, _. split; [done|]. split; [|lia]. split; [|split; [done|]].
      * rewrite Hi2 Hi1 /= -app_assoc //.
      * rewrite -Heq. lia.
Qed.

Lemma bal_ok f p d i l r : avl l → avl r → Z.max (idx l) (idx r) < 2 ^ 62 →
  3 + Z.max (idx l) (idx r) ≤ Z.of_nat f →
  ∃ t' n, bal f (Node p d i l r) = Some (t', n) ∧ balanced l p d r t' ∧ calls (Z.abs (idx l - idx r)) n ∧
    (-1 ≤ idx l - idx r ≤ 1 → idx t' = 1 + Z.max (idx l) (idx r)).
Proof.
  intros Hl Hr Hs Hf. pose proof (avl_nonneg _ Hl). pose proof (avl_nonneg _ Hr).
  destruct (decide (-1 ≤ idx l - idx r ≤ 1)) as [Hflat|Hflat].
  { destruct f as [|f]; [lia|]. destruct (bal_flat_ok f p d i l r Hl Hr Hs Hflat) as (t' & HE & Ht & Hx).
    exists t', 1. split; [done|]. split; [done|]. split; [|done]. unfold calls. lia. }
  destruct (decide (idx l ≤ idx r)).
  - destruct (bal_right_high (Z.to_nat (idx r - idx l)) 0%nat p d i l r Hl Hr ltac:(lia) ltac:(lia)) as (t' & n & HE & Ht & Hn).
    exists t', n. split; [|split; [done|split; [|done]]]; [eapply bal_mono; [|exact HE]; lia|].
    replace (Z.abs (idx l - idx r)) with (Z.of_nat (Z.to_nat (idx r - idx l))) by lia. done.
  - destruct (bal_right_high (Z.to_nat (idx l - idx r)) 0%nat p d i (mirror r) (mirror l)) as (t' & kn & HE & (Hi & Ht & Hx) & Hn).
    { by apply avl_mirror. } { by apply avl_mirror. } { rewrite mirror_idx. lia. } { rewrite !mirror_idx. lia. }
    change (Node p d i (mirror r) (mirror l)) with (mirror (Node p d i l r)) in HE.
    rewrite bal_mirror in HE. apply fmap_Some in HE as ([t2 n2] & HE & [= -> ->]). exists t2, n2.
    split; [eapply bal_mono; [|exact HE]; lia|]. rewrite !mirror_idx in Hx.
    split; [|split; [|done]; replace (Z.abs (idx l - idx r)) with (Z.of_nat (Z.to_nat (idx l - idx r))) by lia; done]. split; [|split].
    + rewrite !mirror_inorder in Hi. apply (f_equal reverse) in Hi.
      rewrite reverse_involutive reverse_app reverse_cons !reverse_involutive -app_assoc // in Hi.
    + rewrite -(mirror_mirror t2). by apply avl_mirror.
    + lia.
Qed.

(** ** Depth *)
Lemma avl_depth t : avl t → idx t ≤ Z.of_nat (depth t) ≤ idx t + 1.
Proof.
  induction t as [|p d i l IHl r IHr]; simpl; [lia|]. intros (Hl & Hr & Hd & Hi).
  specialize (IHl Hl). specialize (IHr Hr). destruct Hi as [->|(-> & -> & ->)]; [lia|simpl; lia].
Qed.
Lemma avl_height_balanced t : avl t → height_balanced 2 t.
Proof.
  induction t as [|p d i l IHl r IHr]; simpl; [done|]. intros (Hl & Hr & Hd & _).
  pose proof (avl_depth _ Hl). pose proof (avl_depth _ Hr). split; [lia|]. split; [lia|]. auto.
Qed.
Lemma avl_size t : avl t → idx t ≤ Z.of_nat (length (inorder t)).
Proof.
  induction t as [|p d i l IHl r IHr]; simpl; [done|]. intros (Hl & Hr & Hd & Hi). rewrite app_length /=.
  specialize (IHl Hl). specialize (IHr Hr). destruct Hi as [->|(-> & _)]; lia.
Qed.

(** Fibonacci numbers *)
Fixpoint fibs (n : nat) : Z * Z := match n with O => (0, 1) | S n => let (a, b) := fibs n in (b, a + b) end.
Definition fib (n : nat) : Z := (fibs n).1.
Lemma fib_SS n : fib (S (S n)) = fib (S n) + fib n.
Proof. unfold fib. simpl. destruct (fibs n). simpl. lia. Qed.
Lemma fib_nonneg n : 0 ≤ fib n ∧ 0 < fib (S n).
Proof. induction n as [|n [IH1 IH2]]; [done|]. rewrite fib_SS. lia. Qed.
Lemma fib_mono n m : (n ≤ m)%nat → fib n ≤ fib m.
Proof.
  induction 1 as [|m _ IH]; [done|]. destruct m as [|m]; [etrans; [exact IH|done]|].
  rewrite fib_SS. pose proof (fib_nonneg m). lia.
Qed.
Lemma fib_add m n : fib (m + S n) = fib (S m) * fib (S n) + fib m * fib n.
Proof.
  revert n. induction m as [|m IH]; intros n.
  - change (fib 1) with 1. change (fib 0) with 0. simpl Nat.add. lia.
  - replace (S m + S n)%nat with (m + S (S n))%nat by lia. rewrite IH. rewrite (fib_SS n) (fib_SS m). ring.
Qed.

Lemma avl_fib t : avl t → fib (Z.to_nat (idx t) + 2) ≤ Z.of_nat (length (inorder t)) + 1.
Proof.
  induction t as [|p d i l IHl r IHr]; simpl; [intros _; vm_compute; done|]. intros (Hl & Hr & Hd & Hi). rewrite app_length /=.
  specialize (IHl Hl). specialize (IHr Hr). pose proof (avl_nonneg _ Hl). pose proof (avl_nonneg _ Hr).
  destruct Hi as [->|(-> & _)].
  - assert (H1 : ∀ a b, a ≤ b → -1 ≤ a - b → 0 ≤ a →
      fib (Z.to_nat (1 + Z.max a b) + 2) ≤ fib (Z.to_nat b + 2) + fib (Z.to_nat a + 2)).
    { intros a b Hab Hab' Ha. replace (Z.to_nat (1 + Z.max a b) + 2)%nat with (S (S (S (Z.to_nat b)))) by lia.
      rewrite fib_SS. replace (Z.to_nat b + 2)%nat with (S (S (Z.to_nat b))) by lia.
      pose proof (fib_mono (S (Z.to_nat b)) (Z.to_nat a + 2) ltac:(lia)). lia. }
    destruct (decide (idx l ≤ idx r)).
    + specialize (H1 (idx l) (idx r) ltac:(lia) ltac:(lia) ltac:(lia)). lia.
    + specialize (H1 (idx r) (idx l) ltac:(lia) ltac:(lia) ltac:(lia)). rewrite Z.max_comm in H1. lia.
  - change (fib (Z.to_nat 0 + 2)) with 1. lia.
Qed.

(** 809/500 is below the golden ratio, and its power of 85 exceeds 2^59. *)
Lemma fib_golden n : 809 ^ Z.of_nat n ≤ 500 ^ Z.of_nat n * fib (n + 2).
Proof.
  assert (Hboth : 809 ^ Z.of_nat n ≤ 500 ^ Z.of_nat n * fib (n + 2) ∧
    809 ^ Z.of_nat (S n) ≤ 500 ^ Z.of_nat (S n) * fib (S n + 2)); [|apply Hboth].
  induction n as [|n [IH1 IH2]]; [done|]. split; [done|].
  replace (S (S n) + 2)%nat with (S (S (n + 2))) by lia. rewrite fib_SS.
  replace (S n + 2)%nat with (S (n + 2)) in IH2 by lia.
  rewrite !Nat2Z.inj_succ in IH2 |- *. rewrite -> !Z.pow_succ_r in IH2 by lia. rewrite -> !Z.pow_succ_r by lia.
  pose proof (fib_nonneg (n + 2)). pose proof (Z.pow_pos_nonneg 500 (Z.of_nat n) ltac:(lia) ltac:(lia)). nia.
Qed.
Lemma golden_85 : 2 ^ 59 * 500 ^ 85 ≤ 809 ^ 85.
Proof. vm_compute. done. Qed.
Lemma fib_log i : 2 ^ (59 * Z.of_nat i) ≤ fib (i + 2) ^ 85.
Proof.
  pose proof (fib_nonneg (i + 2)) as [H0 _].
  assert (Hp : 0 < 500 ^ (85 * Z.of_nat i)) by (apply Z.pow_pos_nonneg; lia).
  apply (Zmult_lt_0_le_reg_r _ _ (500 ^ (85 * Z.of_nat i))); [done|].
  rewrite -> (Z.pow_mul_r 2 59), (Z.pow_mul_r 500 85) by lia. rewrite -Z.pow_mul_l.
  etrans; [apply Z.pow_le_mono_l; split; [|exact golden_85]|].
  { apply Z.mul_nonneg_nonneg; apply Z.pow_nonneg; lia. }
  rewrite <- !Z.pow_mul_r by lia. rewrite !(Z.mul_comm 85). rewrite -> !Z.pow_mul_r by lia. rewrite -Z.pow_mul_l.
  apply Z.pow_le_mono_l. split; [apply Z.pow_nonneg; lia|]. rewrite Z.mul_comm. apply fib_golden.
Qed.

Lemma log_bound_mono k k' n n' : (k ≤ k')%nat → (n' ≤ n)%nat → log_bound k' n' → log_bound k n.
Proof.
  unfold log_bound. intros Hk Hn H. etrans; [|etrans; [exact H|]]; clear H.
  - apply Z.pow_le_mono_r; lia.
  - apply Z.pow_le_mono_l. lia.
Qed.
Lemma avl_log t : avl t → log_bound (depth t) (length (inorder t)).
Proof.
  intros Ht. pose proof (avl_depth _ Ht) as Hd. pose proof (avl_nonneg _ Ht). pose proof (avl_fib _ Ht) as Hf.
  unfold log_bound. etrans; [|etrans; [exact (fib_log (Z.to_nat (idx t)))|]].
  - apply Z.pow_le_mono_r; lia.
  - apply Z.pow_le_mono_l. split; [apply fib_nonneg|lia].
Qed.
