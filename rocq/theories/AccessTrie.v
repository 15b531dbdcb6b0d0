(** * The allocator and the tries access their own memory only. *)
From Verif Require Export AccessTable.
Global Open Scope Z_scope.

Section alloc.
  Variables (F : mem) (FL : gmap Z region).
  Notation local := (local F FL).
  Lemma local2_reset_loop n n' p : (n ≤ n')%nat → local2 F FL (allocator_reset_loop n p) (allocator_reset_loop n' p).
  Proof.
    revert n' p. induction n as [|n IH]; intros n' p Hn; destruct n' as [|n']; simpl; try lia;
      (destruct (decide (p = null)); [apply local_ret|]); try done.
    apply local2_bind; [apply local_load|]. intros v _ _ _.
    apply local2_bind; [apply local_free|]. intros _ _ _ _. apply IH. lia.
  Qed.
  Lemma local_reset t : local (allocator_reset t).
  Proof.
    pose (c := fun n => allocator_reset_loop n (al_used_segment t);; mret (Allocator 0 0 (al_block_size t) (al_align_size t) 0)).
    change (allocator_reset t) with (fun m0 : mem => c (size m0) m0). intros m Hm.
    assert (H : local2 F FL (c (size m)) (c (size (beside F FL m)))).
    { apply local2_bind; [apply local2_reset_loop, size_bes|]. intros. apply local_ret. }
    specialize (H m Hm). cbv beta.
    destruct (c (size m) m) as [v m1| |n|]; try done.
    - destruct H as (l & Hl & ?). exists l. split; [by apply lg_size|done].
    - destruct H as (l & Hl & ?). exists l. split; [by apply lg_size|done].
  Qed.
  Lemma local_carve fuel bs d s f : local (allocator_carve fuel bs d s f).
  Proof. revert d s f. induction fuel; intros; simpl; local_all. Qed.
  Lemma local_al_alloc t : local (allocator_alloc t).
  Proof. pose proof local_carve. rewrite /allocator_alloc /allocator_refill. local_all. Qed.
  Lemma local_al_free t p : local (allocator_free t p).
  Proof. rewrite /allocator_free. local_all. Qed.
  Lemma local_pstep cs o : local (pstep cs o).
  Proof.
    pose proof local_reset. pose proof local_al_alloc. pose proof local_al_free.
    destruct o, cs; simpl; rewrite /allocator_done; local_all.
  Qed.
  Lemma local_clear a n : local (clear_loop a n).
  Proof. revert a. induction n; intros; simpl; local_all. Qed.
  Lemma local_shr_key k s : local (shr_key k s).
  Proof. rewrite /shr_key. local_all. Qed.
  Lemma local_digit k s : local (trie_digit k s).
  Proof. pose proof local_shr_key. rewrite /trie_digit. local_all. Qed.
End alloc.
Global Hint Resolve local_reset local_al_alloc local_al_free local_clear local_shr_key local_digit : loc.
Section trie.
  Variables (F : mem) (FL : gmap Z region).
  Notation local := (local F FL).
  Lemma local_expand fuel al nc s lp node ins key : local (trie_expand fuel al nc s lp node ins key).
  Proof. revert al nc s lp. induction fuel; intros; cbn [trie_expand]; local_all. Qed.
  Lemma local_tri_insert fuel al nc s lp ins key : local (trie_bucket_insert fuel al nc s lp ins key).
  Proof. pose proof local_expand. revert s lp. induction fuel; intros; cbn [trie_bucket_insert]; local_all. Qed.
  Lemma local_let_ptr t k : local (trie_let_ptr t k).
  Proof. rewrite /trie_let_ptr. local_all. Qed.
  Lemma local_scan n tree i c l : local (trie_scan n tree i c l).
  Proof. revert i c l. induction n; intros; simpl; local_all. Qed.
  Lemma local_reduce path al nc : local (trie_reduce path al nc).
  Proof. pose proof local_scan. revert al nc. induction path; intros; cbn [trie_reduce]; local_all. Qed.
  Lemma local_tri_remove fuel al nc s lp rm key path : local (trie_bucket_remove_existing fuel al nc s lp rm key path).
  Proof. pose proof local_reduce. revert s lp path. induction fuel; intros; cbn [trie_bucket_remove_existing]; local_all. Qed.
  Lemma local_tri_bucket_loop fuel s p k : local (trie_bucket_loop fuel s p k).
  Proof. revert s p. induction fuel; intros; cbn [trie_bucket_loop]; local_all. Qed.
  Lemma local_trie_init b : local (trie_init b).
  Proof. rewrite /trie_init. local_all. Qed.
  Lemma local_trie_insert fuel t al p d k : local (trie_insert fuel t al p d k).
  Proof. pose proof local_tri_insert. pose proof local_let_ptr. rewrite /trie_insert. local_all. Qed.
  Lemma local_trie_remove fuel t al k : local (trie_remove fuel t al k).
  Proof. pose proof local_tri_remove. pose proof local_let_ptr. rewrite /trie_remove. local_all. Qed.
  Lemma local_trie_remove_existing fuel t al p : local (trie_remove_existing fuel t al p).
  Proof. pose proof local_tri_remove. pose proof local_let_ptr. rewrite /trie_remove_existing. local_all. Qed.
  Lemma local_trie_bucket fuel t k : local (trie_bucket fuel t k).
  Proof. pose proof local_tri_bucket_loop. pose proof local_let_ptr. rewrite /trie_bucket. local_all. Qed.
  Lemma local_trie_search fuel t k : local (trie_search fuel t k).
  Proof. pose proof local_trie_bucket. rewrite /trie_search. local_all. Qed.
  Lemma local_xstep fuel tb cs o : local (xstep fuel tb cs o).
  Proof.
    pose proof local_trie_init. pose proof local_trie_insert. pose proof local_trie_remove.
    pose proof local_trie_remove_existing. pose proof local_trie_bucket. pose proof local_trie_search.
    destruct o as [| []| | | | | |], cs as [[]|]; cbn [xstep]; rewrite /allocator_done; local_all.
  Qed.

  Lemma local_inp_first p : local (inp_list_insert_first p).
  Proof. rewrite /inp_list_insert_first. local_all. Qed.
  Lemma local_inp_tail h p : local (inp_list_insert_tail_not_empty h p).
  Proof. rewrite /inp_list_insert_tail_not_empty. local_all. Qed.
  Lemma local_inp_list_remove lp p : local (inp_list_remove lp p).
  Proof. rewrite /inp_list_remove. local_all. Qed.
  Lemma local_inp_digit k s : local (inp_digit k s).
  Proof. rewrite /inp_digit. local_all. Qed.
  Lemma local_inp_find fuel s lp k : local (inp_find fuel s lp k).
  Proof. pose proof local_inp_digit. revert s lp. induction fuel; intros; cbn [inp_find]; local_all. Qed.
  Lemma local_inp_copy n to from i : local (inp_copy_loop n to from i).
  Proof. revert i. induction n; intros; simpl; local_all. Qed.
  Lemma local_inp_scan n l : local (inp_scan n l).
  Proof. induction n; intros; cbn [inp_scan]; local_all. Qed.
  Lemma local_inp_leaf fuel a b : local (inp_leaf fuel a b).
  Proof. pose proof local_inp_scan. revert a b. induction fuel; intros; cbn [inp_leaf]; local_all. Qed.
  Lemma local_inp_remove fuel s lp rm k : local (inp_bucket_remove fuel s lp rm k).
  Proof.
    pose proof local_inp_find. pose proof local_inp_list_remove. pose proof local_inp_leaf. pose proof local_inp_copy.
    rewrite /inp_bucket_remove. local_all.
  Qed.
  Lemma local_inp_let_ptr t k : local (inp_let_ptr t k).
  Proof. rewrite /inp_let_ptr. local_all. Qed.
  Lemma local_inp_bucket_loop fuel s p k : local (inp_bucket_loop fuel s p k).
  Proof. pose proof local_inp_digit. revert s p. induction fuel; intros; cbn [inp_bucket_loop]; local_all. Qed.
  Lemma local_inp_init b : local (inp_init b).
  Proof. rewrite /inp_init. local_all. Qed.
  Lemma local_inp_insert fuel t p d k : local (inp_insert fuel t p d k).
  Proof.
    pose proof local_inp_find. pose proof local_inp_first. pose proof local_inp_tail. pose proof local_inp_let_ptr.
    rewrite /inp_insert /inp_bucket_insert. local_all.
  Qed.
  Lemma local_inp_rem fuel t k : local (inp_remove fuel t k).
  Proof. pose proof local_inp_remove. pose proof local_inp_let_ptr. rewrite /inp_remove. local_all. Qed.
  Lemma local_inp_rem_existing fuel t p : local (inp_remove_existing fuel t p).
  Proof. pose proof local_inp_remove. pose proof local_inp_let_ptr. rewrite /inp_remove_existing. local_all. Qed.
  Lemma local_inp_bucket_of fuel t k : local (inp_bucket_of fuel t k).
  Proof. pose proof local_inp_bucket_loop. pose proof local_inp_let_ptr. rewrite /inp_bucket_of. local_all. Qed.
  Lemma local_inp_search fuel t k : local (inp_search fuel t k).
  Proof. pose proof local_inp_bucket_of. rewrite /inp_search. local_all. Qed.
  Lemma local_istep fuel tb cs o : local (istep fuel tb cs o).
  Proof.
    pose proof local_inp_init. pose proof local_inp_insert. pose proof local_inp_rem. pose proof local_inp_rem_existing.
    pose proof local_inp_bucket_of. pose proof local_inp_search.
    destruct o as [|[]|], cs as [t|]; cbn [istep]; local_all.
  Qed.
End trie.
