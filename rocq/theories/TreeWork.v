(** * The functions of tommytree.c once more, counting the calls of
    tommy_tree_balance.

    The functions [.._w] are those of Tree.v with one more result: the number
    of calls of tommy_tree_balance made.  [..erase] says that the rest is the
    same: forgetting the number gives the function of Tree.v. *)
From Verif Require Export TreeSpec.
Global Open Scope Z_scope.

(** [cw] does what [c] does and returns a number as well. *)
Definition erases {A} (c : M A) (cw : M (A * Z)) : Prop := forall m, c m = (x ← cw; mret x.1) m.

(** tommytree.c:53-62 tommy_tree_rotate_left, counting *)
Definition tree_rotate_left_w (balance : Z -> M (Z * Z)) (root : Z) : M (Z * Z) :=
  next ← load (f_next root);
  next_prev ← load (f_prev next);
  store (f_next root) next_prev;;
  b ← balance root;
  store (f_prev next) b.1;;
  r ← balance next;
  mret (r.1, b.2 + r.2).

(** tommytree.c:64-73 tommy_tree_rotate_right, counting *)
Definition tree_rotate_right_w (balance : Z -> M (Z * Z)) (root : Z) : M (Z * Z) :=
  prev ← load (f_prev root);
  prev_next ← load (f_next prev);
  store (f_prev root) prev_next;;
  b ← balance root;
  store (f_next prev) b.1;;
  r ← balance prev;
  mret (r.1, b.2 + r.2).

(** tommytree.c:85-114 tommy_tree_balance, counting: this call and those made by it *)
Fixpoint tree_balance_w (fuel : nat) (root : Z) : M (Z * Z) :=
  match fuel with
  | O => fuel_out
  | S fuel =>
      delta ← tree_delta root;
      if decide (delta < -1) then
        next ← load (f_next root);
        d ← tree_delta next;
        u ← (if decide (d > 0) then
           next ← load (f_next root);
           r ← tree_rotate_right_w (tree_balance_w fuel) next;
           store (f_next root) r.1;;
           mret (tt, r.2)
         else mret (tt, 0));
        r ← tree_rotate_left_w (tree_balance_w fuel) root;
        mret (r.1, 1 + u.2 + r.2)
      else if decide (delta > 1) then
        prev ← load (f_prev root);
        d ← tree_delta prev;
        u ← (if decide (d < 0) then
           prev ← load (f_prev root);
           r ← tree_rotate_left_w (tree_balance_w fuel) prev;
           store (f_prev root) r.1;;
           mret (tt, r.2)
         else mret (tt, 0));
        r ← tree_rotate_right_w (tree_balance_w fuel) root;
        mret (r.1, 1 + u.2 + r.2)
      else
        store (f_index root) 0;;
        prev ← load (f_prev root);
        tree_index_max root prev;;
        next ← load (f_next root);
        tree_index_max root next;;
        i ← load (f_index root);
        store (f_index root) (add64 i 1);;
        mret (root, 1)
  end.

(** tommytree.c:75-83 tommy_tree_move_right, counting *)
Fixpoint tree_move_right_w (bf fuel : nat) (root node : Z) : M (Z * Z) :=
  if decide (root = null) then mret (node, 0) else
  match fuel with
  | O => fuel_out
  | S fuel =>
      next ← load (f_next root);
      r ← tree_move_right_w bf fuel next node;
      store (f_next root) r.1;;
      b ← tree_balance_w bf root;
      mret (b.1, r.2 + b.2)
  end.

(** tommytree.c:116-139 tommy_tree_insert_node, counting *)
Fixpoint tree_insert_node_w (bf fuel : nat) (cmp : Z -> Z -> M Z) (root insert : Z) : M (Z * Z * Z) :=
  if decide (root = null) then mret (insert, insert, 0) else
  match fuel with
  | O => fuel_out
  | S fuel =>
      insert_data ← load (f_data insert);
      root_data ← load (f_data root);
      c ← cmp insert_data root_data;
      if decide (c < 0) then
        prev ← load (f_prev root);
        r ← tree_insert_node_w bf fuel cmp prev insert;
        store (f_prev root) r.1.1;;
        b ← tree_balance_w bf root;
        mret (b.1, r.1.2, r.2 + b.2)
      else if decide (c > 0) then
        next ← load (f_next root);
        r ← tree_insert_node_w bf fuel cmp next insert;
        store (f_next root) r.1.1;;
        b ← tree_balance_w bf root;
        mret (b.1, r.1.2, r.2 + b.2)
      else mret (root, root, 0)
  end.

(** tommytree.c:141-156 tommy_tree_insert, counting *)
Definition tree_insert_w (fuel : nat) (tree : treeS) (node data : Z) : M (Z * treeS * Z) :=
  store (f_data node) data;;
  store (f_prev node) null;;
  store (f_next node) null;;
  store (f_index node) 0;;
  r ← tree_insert_node_w fuel fuel (tr_cmp tree) (tr_root tree) node;
  let count := if decide (r.1.2 = node) then add64 (tr_count tree) 1 else tr_count tree in
  d ← load (f_data r.1.2);
  mret (d, TreeS r.1.1 (tr_cmp tree) count, r.2).

(** tommytree.c:158-181 tommy_tree_remove_node, counting *)
Fixpoint tree_remove_node_w (bf fuel : nat) (cmp : Z -> Z -> M Z) (root data found : Z) : M (Z * Z * Z) :=
  if decide (root = null) then mret (null, found, 0) else
  match fuel with
  | O => fuel_out
  | S fuel =>
      root_data ← load (f_data root);
      c ← cmp data root_data;
      if decide (c < 0) then
        prev ← load (f_prev root);
        r ← tree_remove_node_w bf fuel cmp prev data found;
        store (f_prev root) r.1.1;;
        b ← tree_balance_w bf root;
        mret (b.1, r.1.2, r.2 + b.2)
      else if decide (c > 0) then
        next ← load (f_next root);
        r ← tree_remove_node_w bf fuel cmp next data found;
        store (f_next root) r.1.1;;
        b ← tree_balance_w bf root;
        mret (b.1, r.1.2, r.2 + b.2)
      else
        prev ← load (f_prev root);
        next ← load (f_next root);
        r ← tree_move_right_w bf fuel prev next;
        mret (r.1, root, r.2)
  end.

(** tommytree.c:183-195 tommy_tree_remove, counting *)
Definition tree_remove_w (fuel : nat) (tree : treeS) (data : Z) : M (Z * treeS * Z) :=
  r ← tree_remove_node_w fuel fuel (tr_cmp tree) (tr_root tree) data null;
  if decide (r.1.2 = null) then mret (0, TreeS r.1.1 (tr_cmp tree) (tr_count tree), r.2) else
  d ← load (f_data r.1.2);
  mret (d, TreeS r.1.1 (tr_cmp tree) (sub64 (tr_count tree) 1), r.2).

(** tommytree.c:235-242 tommy_tree_remove_existing, counting *)
Definition tree_remove_existing_w (fuel : nat) (tree : treeS) (node : Z) : M (Z * treeS * Z) :=
  node_data ← load (f_data node);
  r ← tree_remove_w fuel tree node_data;
  massert (bool_decide (r.1.1 <> 0));;
  mret r.

(** One operation of a client ([trstep]) and the number of calls of
    tommy_tree_balance it makes; no other operation makes any. *)
Definition trstep_w (fuel : nat) (t : Z) (cs : option treeS) (o : trop) : M (option treeS * trout * Z) :=
  match o, cs with
  | TrInsert p d, Some st =>
      r ← tree_insert_w fuel st p d; l ← tape_take t; mret (Some r.1.2, TrFound r.1.1 l, r.2)
  | TrRemove d, Some st =>
      r ← tree_remove_w fuel st d; l ← tape_take t; mret (Some r.1.2, TrFound r.1.1 l, r.2)
  | TrRemoveExisting p, Some st =>
      r ← tree_remove_existing_w fuel st p; l ← tape_take t; mret (Some r.1.2, TrFound r.1.1 l, r.2)
  | _, _ => r ← trstep fuel t cs o; mret (r, 0)
  end.

(** The same with the number as a part of the answer *)
Definition trstep_n (fuel : nat) (t : Z) (cs : option treeS) (o : trop) : M (option treeS * (trout * Z)) :=
  r ← trstep_w fuel t cs o; mret (r.1.1, (r.1.2, r.2)).

(** The number of calls is at most 33 times the length of a path for an
    insertion in a tree of [N] elements, and about 16 times its square for a
    removal; the other operations make none. *)
Definition trwork (N : nat) (o : trop) (n : Z) : Prop :=
  match o with
  | TrInsert _ _ => exists k, log_bound k N /\ 0 <= n <= 33 * Z.of_nat k
  | TrRemove _ | TrRemoveExisting _ => exists k, log_bound k N /\ 0 <= n <= Z.of_nat k * (16 * Z.of_nat k + 1)
  | _ => n = 0
  end.

(** Any client of the functions that count *)
Definition after_any_counted_history
    (Q : option treeS -> list (trop * (trout * Z)) -> mem -> Prop) : Prop :=
  forall om K D t live m fuel c, tree_start om K t live m -> (size om + 4 <= fuel)%nat ->
  allowed (trpre om K D) (fun s o a s' => trpost s o a.1 s') (trstate0 om live) c ->
  succeeds (run (trstep_n fuel t) None c m) (fun r m' => Q r.1 r.2 m').

(** ** Forgetting the number *)
Lemma erases_ret {A} (x : A) n : erases (mret x) (mret (x, n)).
Proof. done. Qed.
Lemma erases_fuel {A} : erases (A:=A) fuel_out fuel_out.
Proof. done. Qed.
Lemma erases_step {A B} (c : M A) (k : A → M B) kw : (∀ x, erases (k x) (kw x)) → erases (c ≫= k) (c ≫= kw).
Proof. intros H m. unfold mbind, M_bind. destruct (c m) as [x m'| | |]; [apply H|done..]. Qed.
Lemma erases_bind {A B} (c : M A) cw (k : A → M B) kw :
  erases c cw → (∀ x n, erases (k x) (kw (x, n))) → erases (c ≫= k) (cw ≫= kw).
Proof.
  intros Hc H m. specialize (Hc m). unfold mbind, M_bind in *. rewrite Hc.
  destruct (cw m) as [[x n] m'| | |]; [apply H|done..].
Qed.
Lemma erases_tail {A} (c : M A) cw (kw : A * Z → M (A * Z)) :
  erases c cw → (∀ x n, erases (mret x) (kw (x, n))) → erases c (cw ≫= kw).
Proof.
  intros Hc H m. specialize (Hc m). unfold mbind, M_bind in *. rewrite Hc.
  destruct (cw m) as [[x n] m'| | |]; [apply H|done..].
Qed.
Lemma rotate_left_erase b bw root : (∀ p, erases (b p) (bw p)) → erases (tree_rotate_left b root) (tree_rotate_left_w bw root).
Proof.
  intros Hb. unfold tree_rotate_left, tree_rotate_left_w. do 3 (apply erases_step; intros ?).
  eapply erases_bind; [apply Hb|intros ? ?; cbn [fst snd]]. apply erases_step; intros ?.
  eapply erases_tail; [apply Hb|intros ? ?; apply erases_ret].
Qed.
Lemma rotate_right_erase b bw root : (∀ p, erases (b p) (bw p)) → erases (tree_rotate_right b root) (tree_rotate_right_w bw root).
Proof.
  intros Hb. unfold tree_rotate_right, tree_rotate_right_w. do 3 (apply erases_step; intros ?).
  eapply erases_bind; [apply Hb|intros ? ?; cbn [fst snd]]. apply erases_step; intros ?.
  eapply erases_tail; [apply Hb|intros ? ?; apply erases_ret].
Qed.
Lemma balance_erase fuel : ∀ root, erases (tree_balance fuel root) (tree_balance_w fuel root).
Proof.
  induction fuel as [|fuel IH]; intros root; [done|]. cbn [tree_balance tree_balance_w].
  apply erases_step; intros dl. destruct (decide (dl < -1)); [|destruct (decide (dl > 1))].
  - apply erases_step; intros ?. apply erases_step; intros ?. eapply (erases_bind (A:=unit)).
    + case_decide; [|apply erases_ret]. apply erases_step; intros ?.
      eapply erases_bind; [by apply rotate_right_erase|]. intros ? ?. cbn [fst snd].
      intros m. unfold mbind, M_bind. match goal with |- context [store ?a ?b m] => by destruct (store a b m) as [[] ?| | |] end.
    + intros ? ?. eapply erases_tail; [by apply rotate_left_erase|]. intros ? ?. apply erases_ret.
  - apply erases_step; intros ?. apply erases_step; intros ?. eapply (erases_bind (A:=unit)).
    + case_decide; [|apply erases_ret]. apply erases_step; intros ?.
      eapply erases_bind; [by apply rotate_left_erase|]. intros ? ?. cbn [fst snd].
      intros m. unfold mbind, M_bind. match goal with |- context [store ?a ?b m] => by destruct (store a b m) as [[] ?| | |] end.
    + intros ? ?. eapply erases_tail; [by apply rotate_right_erase|]. intros ? ?. apply erases_ret.
  - do 7 (apply erases_step; intros ?). apply erases_ret.
Qed.
Lemma move_right_erase bf fuel : ∀ root node, erases (tree_move_right bf fuel root node) (tree_move_right_w bf fuel root node).
Proof.
  induction fuel as [|fuel IH]; intros root node; cbn [tree_move_right tree_move_right_w]; destruct (decide (root = null)); try done.
  apply erases_step; intros ?. eapply erases_bind; [apply IH|]. intros ? ?. apply erases_step; intros ?.
  eapply erases_tail; [apply balance_erase|]. intros ? ?. apply erases_ret.
Qed.
Lemma insert_node_erase bf cmp fuel : ∀ root ins, erases (tree_insert_node bf fuel cmp root ins) (tree_insert_node_w bf fuel cmp root ins).
Proof.
  induction fuel as [|fuel IH]; intros root node; cbn [tree_insert_node tree_insert_node_w]; destruct (decide (root = null)); try done.
  do 3 (apply erases_step; intros ?). case_decide; [|case_decide]; [| |apply erases_ret];
    (apply erases_step; intros ?; eapply erases_bind; [apply IH|]; intros ? ?; apply erases_step; intros ?;
     eapply erases_bind; [apply balance_erase|]; intros ? ?; apply erases_ret).
Qed.
Lemma remove_node_erase bf cmp fuel : ∀ root d f, erases (tree_remove_node bf fuel cmp root d f) (tree_remove_node_w bf fuel cmp root d f).
Proof.
  induction fuel as [|fuel IH]; intros root d f; cbn [tree_remove_node tree_remove_node_w]; destruct (decide (root = null)); try done.
  do 2 (apply erases_step; intros ?). case_decide; [|case_decide].
  - apply erases_step; intros ?. eapply erases_bind; [apply IH|]. intros ? ?. apply erases_step; intros ?.
    eapply erases_bind; [apply balance_erase|]. intros ? ?. apply erases_ret.
  - apply erases_step; intros ?. eapply erases_bind; [apply IH|]. intros ? ?. apply erases_step; intros ?.
    eapply erases_bind; [apply balance_erase|]. intros ? ?. apply erases_ret.
  - do 2 (apply erases_step; intros ?). eapply erases_bind; [apply move_right_erase|]. intros ? ?. apply erases_ret.
Qed.
Lemma insert_erase fuel st p d : erases (tree_insert fuel st p d) (tree_insert_w fuel st p d).
Proof.
  unfold tree_insert, tree_insert_w. do 4 (apply erases_step; intros ?).
  eapply erases_bind; [apply insert_node_erase|]. intros ? ?. apply erases_step; intros ?. apply erases_ret.
Qed.
Lemma remove_erase fuel st d : erases (tree_remove fuel st d) (tree_remove_w fuel st d).
Proof.
  unfold tree_remove, tree_remove_w. eapply erases_bind; [apply remove_node_erase|]. intros ? ?. cbn [fst snd].
  case_decide; [apply erases_ret|]. apply erases_step; intros ?. apply erases_ret.
Qed.
Lemma remove_existing_erase fuel st p : erases (tree_remove_existing fuel st p) (tree_remove_existing_w fuel st p).
Proof.
  unfold tree_remove_existing, tree_remove_existing_w. apply erases_step; intros ?.
  eapply erases_bind; [apply remove_erase|]. intros ? ?. cbn [fst snd]. apply erases_step; intros ?. apply erases_ret.
Qed.
Lemma trstep_erase fuel t cs o : erases (trstep fuel t cs o) (trstep_w fuel t cs o).
Proof.
  assert (Hgen : ∀ o, erases (trstep fuel t cs o) (r ← trstep fuel t cs o; mret (r, 0))).
  { intros o' m. unfold mbind, M_bind. by destruct (trstep fuel t cs o' m) as [? ?| | |]. }
  destruct o, cs as [st|]; try apply Hgen; cbn [trstep trstep_w].
  - eapply erases_bind; [apply insert_erase|]. intros ? ?. apply erases_step; intros ?. apply erases_ret.
  - eapply erases_bind; [apply remove_erase|]. intros ? ?. apply erases_step; intros ?. apply erases_ret.
  - eapply erases_bind; [apply remove_existing_erase|]. intros ? ?. apply erases_step; intros ?. apply erases_ret.
Qed.
