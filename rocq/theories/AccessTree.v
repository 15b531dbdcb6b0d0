(** * The tree accesses its own memory only. *)
From Verif Require Export AccessTable.
From Verif Require Import TreeSpec.
Global Open Scope Z_scope.

Section tree.
  Variables (F : mem) (FL : gmap Z region).
  Notation local := (local F FL).
  Lemma local_height p : local (tree_height p).
  Proof. rewrite /tree_height. local_all. Qed.
  Lemma local_delta p : local (tree_delta p).
  Proof. pose proof local_height. rewrite /tree_delta. local_all. Qed.
  Lemma local_index_max p q : local (tree_index_max p q).
  Proof. rewrite /tree_index_max. local_all. Qed.
  Lemma local_rot_left b p : (∀ q, local (b q)) → local (tree_rotate_left b p).
  Proof. intros. rewrite /tree_rotate_left. local_all. Qed.
  Lemma local_rot_right b p : (∀ q, local (b q)) → local (tree_rotate_right b p).
  Proof. intros. rewrite /tree_rotate_right. local_all. Qed.
  Lemma local_balance fuel p : local (tree_balance fuel p).
  Proof.
    pose proof local_delta. pose proof local_index_max. pose proof local_rot_left. pose proof local_rot_right.
    revert p. induction fuel; intros; cbn [tree_balance]; local_all.
  Qed.
  Lemma local_move_right bf fuel p q : local (tree_move_right bf fuel p q).
  Proof. pose proof local_balance. revert p. induction fuel; intros; cbn [tree_move_right]; local_all. Qed.
  Lemma local_foreach_node fuel p func : (∀ d, local (func d)) → local (tree_foreach_node fuel p func).
  Proof. intros. revert p. induction fuel; intros; cbn [tree_foreach_node]; local_all. Qed.
  Section cmp.
    Variable cmp : Z → Z → M Z.
    Hypothesis Hcmp : ∀ x y, local (cmp x y).
    Lemma local_insert_node bf fuel p q : local (tree_insert_node bf fuel cmp p q).
    Proof using Hcmp. pose proof local_balance. revert p. induction fuel; intros; cbn [tree_insert_node]; local_all. Qed.
    Lemma local_remove_node bf fuel p d q : local (tree_remove_node bf fuel cmp p d q).
    Proof using Hcmp.
      pose proof local_balance. pose proof local_move_right.
      revert p. induction fuel; intros; cbn [tree_remove_node]; local_all.
    Qed.
    Lemma local_search_node fuel p d : local (tree_search_node fuel cmp p d).
    Proof using Hcmp. revert p. induction fuel; intros; cbn [tree_search_node]; local_all. Qed.
  End cmp.

  (** The comparison of the tree only looks. *)
  Definition tree_looks (st : treeS) : Prop := ∀ x y, local (tr_cmp st x y).

  Lemma local_tree_insert fuel st p d : tree_looks st → local (tree_insert fuel st p d).
  Proof. intros H. pose proof (local_insert_node _ H). rewrite /tree_insert. local_all. Qed.
  Lemma local_tree_remove fuel st d : tree_looks st → local (tree_remove fuel st d).
  Proof. intros H. pose proof (local_remove_node _ H). rewrite /tree_remove. local_all. Qed.
  Lemma local_tree_remove_existing fuel st p : tree_looks st → local (tree_remove_existing fuel st p).
  Proof. intros H. pose proof (local_tree_remove fuel st). rewrite /tree_remove_existing. local_all. Qed.
  Lemma local_tree_search fuel st d : tree_looks st → local (tree_search fuel st d).
  Proof. intros H. pose proof (local_search_node _ H). rewrite /tree_search. local_all. Qed.
  Lemma local_tree_search_compare fuel st cmp d : (∀ x y, local (cmp x y)) → local (tree_search_compare fuel st cmp d).
  Proof. intros H. pose proof (local_search_node _ H). rewrite /tree_search_compare. local_all. Qed.

  Lemma gives_tree_insert fuel st p d : gives (λ r, tr_cmp r.2 = tr_cmp st) (tree_insert fuel st p d).
  Proof. rewrite /tree_insert. repeat (eapply gives_bind; [apply gives_any|intros ? _]). by apply gives_ret. Qed.
  Lemma gives_tree_remove fuel st d : gives (λ r, tr_cmp r.2 = tr_cmp st) (tree_remove fuel st d).
  Proof.
    rewrite /tree_remove. eapply gives_bind; [apply gives_any|intros ? _]. destruct (decide _); [by apply gives_ret|].
    eapply gives_bind; [apply gives_any|intros ? _]. by apply gives_ret.
  Qed.
  Lemma gives_tree_remove_existing fuel st p : gives (λ r, tr_cmp r.2 = tr_cmp st) (tree_remove_existing fuel st p).
  Proof.
    rewrite /tree_remove_existing. eapply gives_bind; [apply gives_any|intros ? _].
    eapply gives_bind; [apply gives_tree_remove|intros r Hr]. eapply gives_bind; [apply gives_any|intros ? _].
    by apply gives_ret.
  Qed.

  Definition struct_looks (cs : option treeS) : Prop := match cs with Some st => tree_looks st | None => True end.
  Lemma local_trstep fuel t cs o : struct_looks cs → trlooks o →
    local (trstep fuel t cs o) ∧ gives (λ r, struct_looks r.1) (trstep fuel t cs o).
  Proof.
    intros Hcs Ho.
    assert (Hsame : ∀ st st', tree_looks st → tr_cmp st' = tr_cmp st → tree_looks st') by by rewrite /tree_looks => ? ? ? ->.
    pose proof local_foreach_node.
    split.
    - destruct o, cs as [st|]; simpl in *; rewrite /tree_foreach /tree_foreach_arg;
        try (apply local_bind; [|intros; local_all]); local_all;
        auto using local_tree_insert, local_tree_remove, local_tree_remove_existing, local_tree_search.
      apply local_tree_search_compare. intros. by apply local_cmp.
    - destruct o, cs as [st|]; simpl in *; try done;
        try (by apply gives_ret);
        try (intros m v m' Hv; by apply (gives_ret _ _ Hcs m v m'));
        try (eapply gives_bind; [first [apply gives_tree_insert|apply gives_tree_remove|apply gives_tree_remove_existing|apply gives_any]|
          intros ? ?; eapply gives_bind; [apply gives_any|intros ? _]; apply gives_ret; simpl; by eauto]).
      all: apply gives_ret; simpl; intros x y; by apply local_cmp.
  Qed.
End tree.
