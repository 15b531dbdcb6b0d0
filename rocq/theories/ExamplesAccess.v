(** * Examples of memories beside others. *)
From Verif Require Export AccessHist ExamplesRoom ExamplesCall.
From Verif Require ExamplesTree ExamplesTrie ExamplesInp ExamplesAlloc.
Global Open Scope Z_scope.

(** ** Checks by computation *)
Definition is_wordcell (c : cell) : bool := match c with W _ | U => true | _ => false end.
Definition aligned_check (m : mem) : bool :=
  forallb (λ x, if is_wordcell x.2 then bool_decide (x.1 mod 8 = 0) else true) (map_to_list m).
Lemma aligned_check_ok m : aligned_check m = true → words_aligned m.
Proof.
  intros H a c Ha Hc. unfold aligned_check in H. rewrite forallb_forall in H.
  specialize (H (a, c)). rewrite -elem_of_list_In elem_of_map_to_list in H. specialize (H Ha). simpl in H.
  assert (Hw : is_wordcell c = true) by by destruct Hc as [->|[z ->]]. rewrite Hw in H. by apply bool_decide_eq_true in H.
Qed.
Definition foreign_check (F : list (Z * cell)) (FL : list (Z * region)) (m : mem) : bool :=
  forallb (λ x, match m !! x.1 with None => true | _ => false end) F &&
  match m !! HCTL with
  | Some (Ctl h) =>
      forallb (λ x, match hc_live h !! x.1 with None => true | _ => false end) FL &&
      forallb (λ y, forallb (λ a, match (list_to_map F : mem) !! a with None => true | _ => false end) (region_cells y.1 y.2))
        (map_to_list (hc_live h))
  | _ => true
  end.
Lemma foreign_check_ok F FL m : foreign_check F FL m = true → foreign (list_to_map F) (list_to_map FL) m.
Proof.
  unfold foreign_check. intros [H1 H2]%andb_true_iff. rewrite forallb_forall in H1. split.
  - apply map_disjoint_spec. intros a x y Hx Hy. apply elem_of_list_to_map_2 in Hx.
    specialize (H1 (a, x)). rewrite -elem_of_list_In in H1. specialize (H1 Hx). simpl in H1. by rewrite Hy in H1.
  - intros h Hh. rewrite Hh in H2. apply andb_true_iff in H2 as [H2 H3]. rewrite forallb_forall in H2. rewrite forallb_forall in H3.
    split.
    + apply map_disjoint_spec. intros a x y Hx Hy. apply elem_of_list_to_map_2 in Hx.
      specialize (H2 (a, x)). rewrite -elem_of_list_In in H2. specialize (H2 Hx). simpl in H2. by rewrite Hy in H2.
    + intros b r Hb. apply Forall_forall. intros a Ha. specialize (H3 (b, r)).
      rewrite -elem_of_list_In elem_of_map_to_list in H3. specialize (H3 Hb). rewrite forallb_forall in H3.
      specialize (H3 a). rewrite -elem_of_list_In in H3. specialize (H3 Ha). by destruct (list_to_map F !! a).
Qed.

(** The memory of others: a word that is not aligned, a word next to an object of
    the client, and a block. *)
Definition far : list (Z * cell) := [(5, W 3); (1080, W 9); (900000, W 1); (900008, B 2)].
Definition far_blocks : list (Z * region) := [(900000, RWords 1)].

Lemma ex_looks off : only_looks (ex_kcmp off).
Proof.
  intros a b m. unfold ex_kcmp, mbind, M_bind, load.
  destruct (m !! (a + off)) as [[x| | | |]|] eqn:E1; try (by left).
  destruct (m !! (b + off)) as [[y| | | |]|] eqn:E2; try (by left).
  right. exists (x - y). intros m2 H. rewrite (H _ _ E1) // (H _ _ E2) //.
Qed.
Lemma ex_find_looks off : only_looks (ex_kfind off).
Proof.
  intros a b m. unfold ex_kfind, mbind, M_bind, load.
  destruct (m !! (b + off)) as [[x| | | |]|] eqn:E1; try (by left).
  right. exists (a - x). intros m2 H. rewrite (H _ _ E1) //.
Qed.
Lemma ex_any_looks : only_looks ex_kany.
Proof. intros a b m. right. by eexists. Qed.
Lemma ex_coarse_looks : only_looks ExamplesTree.ex_kcoarse.
Proof.
  intros a b m. unfold ExamplesTree.ex_kcoarse, mbind, M_bind, load.
  destruct (m !! (b + 4008)) as [[x| | | |]|] eqn:E1; try (by left).
  right. exists (a - x / 20). intros m2 H. rewrite (H _ _ E1) //.
Qed.
Lemma ex_list_looks : every llooks ex_list_client.
Proof. unfold ex_list_client, ex_list_ops. cbn. repeat split. intros _. apply ex_looks. Qed.
Lemma ex_table_looks : every tlooks ex_table_client.
Proof. unfold ex_table_client, ex_table_ops. cbn. repeat split; try done; (apply ex_find_looks || apply ex_any_looks). Qed.
Lemma ex_m_aligned : words_aligned ex_m.
Proof. apply aligned_check_ok. vm_compute. exact eq_refl. Qed.
Lemma ex_m_foreign : foreign (list_to_map far) (list_to_map far_blocks) ex_m.
Proof. apply foreign_check_ok. vm_compute. exact eq_refl. Qed.
Lemma ex_tree_looks : every trlooks ExamplesTree.ex_tree_client.
Proof. unfold ExamplesTree.ex_tree_client, ExamplesTree.ex_tree_ops. cbn. repeat split; try done; (apply ex_looks || apply ex_find_looks || apply ex_coarse_looks). Qed.
Lemma ex_trie_aligned : words_aligned ExamplesTrie.ex_trie_m.
Proof. apply aligned_check_ok. vm_compute. exact eq_refl. Qed.
Lemma ex_trie_foreign : foreign (list_to_map far) (list_to_map far_blocks) ExamplesTrie.ex_trie_m.
Proof. apply foreign_check_ok. vm_compute. exact eq_refl. Qed.
Lemma exa_aligned : words_aligned exa_m.
Proof. apply aligned_check_ok. vm_compute. exact eq_refl. Qed.
Lemma exa_foreign : foreign (list_to_map far) (list_to_map far_blocks) exa_m.
Proof. apply foreign_check_ok. vm_compute. exact eq_refl. Qed.

Lemma iex_aligned : words_aligned ExamplesInp.iex_m.
Proof. apply aligned_check_ok. vm_compute. exact eq_refl. Qed.
Lemma iex_foreign : foreign (list_to_map far) (list_to_map far_blocks) ExamplesInp.iex_m.
Proof. apply foreign_check_ok. vm_compute. exact eq_refl. Qed.
(** Histories beside [far] run to the end. *)
Definition left_alone {A} (r : res A) : Prop :=
  match r with Ok _ m2 => m2 !! 5 = Some (W 3) ∧ m2 !! 1080 = Some (W 9) | _ => False end.
Lemma ex_list_completes :
  left_alone (run (lstep 8 ex_t) () ex_list_client (beside (list_to_map far) (list_to_map far_blocks) ex_m)).
Proof. vm_compute. by split. Qed.
Lemma ex_tables_complete : Forall (λ T,
  left_alone (run (tstep T 8 ex_t) None ex_table_client (beside (list_to_map far) (list_to_map far_blocks) ex_m)))
  [hashtable_table; hashdyn_table; hashlin_table].
Proof. do 3 (constructor; [vm_compute; by split|]). constructor. Qed.
Lemma ex_trie_completes :
  left_alone (run (TrieSpec.xstep 10 ExamplesTrie.ex_tb) None ExamplesTrie.ex_trie_client
    (beside (list_to_map far) (list_to_map far_blocks) ExamplesTrie.ex_trie_m)).
Proof. vm_compute. by split. Qed.
(** With a word of others where malloc would give the block, malloc refuses. *)
Lemma ex_table_refused :
  run (tstep hashtable_table 8 ex_t) None ex_table_client (beside {[8200 := U]} ∅ ex_m) = Env 128.
Proof. vm_compute. reflexivity. Qed.

Lemma ex_visit : ∃ m', list_foreach 3 ex_l1 (tape_push ex_t) ex_m2 = Ok () m' ∧ m' !! ex_t = Some (Tape ex_xs2.*2).
Proof. eexists. split; [vm_compute; reflexivity|vm_compute; reflexivity]. Qed.

(** ** What a log looks like *)
(** The log is about the run of the code. *)
Lemma logged_sound A (c : M A) m l r : logged c m l r → c m = r.
Proof.
  induction 1; try done; unfold mbind, M_bind in *; by rewrite IHlogged1 || by rewrite IHlogged.
Qed.
Lemma insert_first_log l p m m' : list_insert_first l p m = Ok () m' →
  logged (list_insert_first l p) m [AWord (p + 8); AWord p; AWord l] (Ok () m').
Proof.
  unfold list_insert_first. intros H.
  destruct (store (f_prev p) p m) as [[] m1| | |] eqn:E1; unfold mbind, M_bind in H; rewrite E1 // in H.
  destruct (store (f_next p) null m1) as [[] m2| | |] eqn:E2; rewrite ?E2 // in H.
  change [AWord (p + 8); AWord p; AWord l] with ([AWord (f_prev p)] ++ [AWord (f_next p)] ++ [AWord l]).
  eapply (lg_bind _ _ _ _ _ _ () m1); [rewrite -E1; constructor|].
  eapply (lg_bind _ _ _ _ _ _ () m2); [rewrite -E2; constructor|]. rewrite -H. constructor.
Qed.
