(** * A callback that destroys the node it is called with, and structures it is
    used with. *)
From Verif Require Export ListHist Examples.
Global Open Scope Z_scope.

Definition ex_smash (d : Z) : M unit :=
  p ← mret (d + 8); store (f_next p) 1;; store (f_prev p) 2;; store (f_data p) 3;; visit ex_t d.
Lemma seq_ok {A} (c : M unit) (k : M A) m v m2 : (c;; k) m = Ok v m2 → ∃ m1, c m = Ok tt m1 ∧ k m1 = Ok v m2.
Proof. unfold mbind, M_bind. destruct (c m) as [[] m1| | |]; try done. eauto. Qed.
Lemma store_other a v m m' b : store a v m = Ok tt m' → b ≠ a → m' !! b = m !! b.
Proof. unfold store. intros H Hb. destruct (m !! a) as [[]|]; try done; injection H as <-; by rewrite lookup_insert_ne. Qed.
Lemma push_other a v m m' b : tape_push a v m = Ok tt m' → b ≠ a → m' !! b = m !! b.
Proof. unfold tape_push. intros H Hb. destruct (m !! a) as [[]|]; try done; injection H as <-; by rewrite lookup_insert_ne. Qed.
Lemma smash_other d m m' a : ex_smash d m = Ok tt m' → a ≠ ex_t → a ∉ node_cells 4 (d + 8) → m' !! a = m !! a.
Proof.
  intros Hf Ht Ha. rewrite node_cells_4 in Ha. change (ex_smash d m) with ((store (f_next (d + 8)) 1;; store (f_prev (d + 8)) 2;;
    store (f_data (d + 8)) 3;; visit ex_t d) m) in Hf.
  apply seq_ok in Hf as (n1 & H1 & Hf). apply seq_ok in Hf as (n2 & H2 & Hf). apply seq_ok in Hf as (n3 & H3 & Hf).
  rewrite (push_other _ _ _ _ a Hf); [|done]. rewrite (store_other _ _ _ _ a H3); [|set_solver].
  rewrite (store_other _ _ _ _ a H2); [|set_solver]. apply (store_other _ _ _ _ a H1). set_solver.
Qed.
Lemma smash_rest (xs : list (Z * Z)) dn x more a :
  Forall (λ x, x.1 = x.2 + 8) xs → NoDup (ex_t :: (xs.*1 ≫= node_cells 4)) → xs = dn ++ x :: more →
  a ∈ (more.*1 ≫= node_cells 4) → a ≠ ex_t ∧ a ∉ node_cells 4 (x.2 + 8).
Proof.
  intros Hf Hn -> Ha. apply NoDup_cons in Hn as [Ht Hn]. rewrite fmap_app fmap_cons bind_app bind_cons in Ht Hn.
  apply Forall_app in Hf as [_ Hf]. inversion Hf as [|? ? Hx _]; subst. rewrite -Hx.
  apply NoDup_app in Hn as (_ & _ & Hn). apply NoDup_app in Hn as (_ & Hn & _). split.
  - intros ->. apply Ht. rewrite !elem_of_app. by right; right.
  - intros Ha'. by apply (Hn a).
Qed.
Lemma smash_spares (xs : list (Z * Z)) m :
  Forall (λ x, x.1 = x.2 + 8) xs → NoDup (ex_t :: (xs.*1 ≫= node_cells 4)) → spares_unvisited ex_smash xs m.
Proof.
  intros Hf Hn dn x more m1 m2 Heq Hs Hc p d a Hin Ha.
  destruct (smash_rest xs dn x more a Hf Hn Heq) as [Ht Hx].
  { apply elem_of_list_bind. exists p. split; [done|]. apply elem_of_list_fmap. by exists (p, d). }
  rewrite (smash_other _ _ _ a Hc Ht Hx). eapply Hs; [by right|done].
Qed.
(** A list whose data are the objects of its nodes. *)
Definition ex_m3 : mem := list_to_map (
  [(ex_t, Tape []); (ex_l1, W 1008)] ++
  ex_node 1008 2008 3008 1000 ++ ex_node 2008 3008 1008 2000 ++ ex_node 3008 0 2008 3000).
Definition ex_xs3 : list (Z * Z) := [(1008, 1000); (2008, 2000); (3008, 3000)].
Lemma ex_smash_list : list_rep ex_m3 ex_l1 ex_xs3 ∧ spares_unvisited ex_smash ex_xs3 ex_m3.
Proof.
  split; [|apply smash_spares; [repeat constructor|decide_by_compute]].
  split; [reflexivity|]. split; [|decide_by_compute]. repeat (split; [lia || done|]).
  repeat split; try done; try (eexists; split; [reflexivity|by left]).
Qed.
Definition ex_smash_list_tape : option (list Z) :=
  match list_foreach 3 ex_l1 ex_smash ex_m3 with
  | Ok _ m => match m !! ex_t with Some (Tape l) => Some l | _ => None end
  | _ => None
  end.
Lemma ex_smash_list_calls : ex_smash_list_tape = Some [1000; 2000; 3000].
Proof. vm_compute. reflexivity. Qed.

(** ** Sorting by the data itself: the list of [ex_rep] is in order, and with
    the operands swapped in reverse order. *)
Definition ex_up (a b : Z) : M Z := mret (a - b).
Definition ex_down (a b : Z) : M Z := mret (b - a).
Lemma ex_orders : separate ∅ (ex_t :: ex_l1 :: (ex_xs2.*1 ≫= node_cells 4)) ex_m2 ∧
  (∀ a b, reads ∅ ex_up (λ a b, a - b) a b ∧ reads ∅ ex_down (λ a b, b - a) a b) ∧
  sorted_by (λ a b, a - b) ex_xs2 ∧
  StronglySorted (λ x y, (y : Z * Z).2 - (x : Z * Z).2 > 0 ∧ x.2 - y.2 < 0) ex_xs2.
Proof.
  split; [split; [apply map_empty_subseteq|done]|]. split; [done|]. unfold ex_xs2, sorted_by.
  split; repeat constructor; simpl; lia.
Qed.
Definition ex_sort_tape (f : Z → Z → M Z) : option cell :=
  match list_sort 3 ex_l1 (tape_cmp ex_t (λ _, f)) ex_m2 with Ok _ m' => m' !! ex_t | _ => None end.
Lemma ex_sort_tapes : ex_sort_tape ex_up = Some (Tape [1000; 2000; 2000; 3000]) ∧
  ex_sort_tape ex_down = Some (Tape [1000; 2000; 2000; 1000; 1000; 3000; 3000; 2000]).
Proof. vm_compute. done. Qed.
