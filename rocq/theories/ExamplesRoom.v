(** * Memories with room, and clients that fit in them. *)
From Verif Require Export Room ExamplesRequests.
Global Open Scope Z_scope.

Lemma room_by_compute base stride m h :
  0 < base → base mod 16 = 0 → 0 < stride → stride mod 16 = 0 → m !! HCTL = Some (Ctl h) →
  (∀ i, hc_oracle h (hc_next h + i)%nat = base + stride * Z.of_nat i) →
  bool_decide (Forall (λ x, x.1 < base) (map_to_list m)) = true →
  bool_decide (Forall (λ x, x.1 < base ∧ x.1 + region_bytes x.2 <= base) (map_to_list (hc_live h))) = true →
  room base stride m.
Proof.
  intros H0 H1 H2 H3 Hh Ho Hc%bool_decide_eq_true Hl%bool_decide_eq_true. do 4 (split; [done|]). exists h.
  split; [done|]. split; [done|]. rewrite !Forall_forall in Hc, Hl. split.
  - intros k c Hk. by apply (Hc (k, c)), elem_of_map_to_list.
  - intros k r Hk. by apply (Hl (k, r)), elem_of_map_to_list.
Qed.
Lemma big_room : room 1048576 65536 big_m.
Proof.
  eapply room_by_compute; [done|done|done|done|apply lookup_insert| | |].
  - intros i. simpl. lia.
  - vm_compute. reflexivity.
  - vm_compute. reflexivity.
Qed.
Lemma exa_room : room 65536 65536 exa_m.
Proof.
  eapply room_by_compute; [done|done|done|done|apply lookup_insert| | |].
  - intros i. simpl. lia.
  - vm_compute. reflexivity.
  - vm_compute. reflexivity.
Qed.

(** Of a list of operations the cost is a sum. *)
Lemma costs_list {op out} (cost : op → Z) (l : list op) n : (∀ o, 0 ≤ cost o) →
  foldr (λ o s, cost o + s) 0 l ≤ n → costs cost n (prog_of_list l : prog op out).
Proof.
  intros Hc. revert n. induction l as [|o l IH]; intros n; simpl; [done|]. intros Hn.
  assert (Hp : ∀ l, 0 ≤ foldr (λ o s, cost o + s) 0 l) by (intros l'; induction l' as [|x l' IH']; simpl; [done|pose proof (Hc x); lia]).
  split; [pose proof (Hp l); lia|]. intros _. apply IH. lia.
Qed.
Lemma big_room_client : allowed (troom 0 big_om ∅) tpost (tstate0 big_om ∅) grow_client ∧ costs tcost 66 grow_client.
Proof.
  split.
  - eapply (allowed_mono (λ s o, trequest 0 big_om ∅ s o ∧ plain o)).
    + intros s o [Hr Hp]. split; [done|]. by destruct o.
    + apply allowed_every; [apply grow_client_requests|]. apply every_list. decide_by_compute.
  - apply costs_list; [by intros []|]. by vm_compute.
Qed.
Lemma exa_room_client : allowed (arequest array_a 8000 8) (apost array_a) (astate0 exa_live) (prog_of_list [AInit 8; AGrow 8000]) ∧
  costs (acost (λ _, 0)) 65 (prog_of_list [AInit 8; AGrow 8000] : prog aop aout).
Proof.
  split; [apply grow_requests; simpl; lia|]. apply costs_list; [by intros []|]. by vm_compute.
Qed.
