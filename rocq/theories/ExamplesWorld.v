(** * A concrete client of several containers *)
From Verif Require Export ListSpec TableSpec AllocSpec WorldHist.
Global Open Scope Z_scope.

(** A linear hashtable, a list and an allocator.  The client has no memory at the beginning. *)
Definition wex_cs : list container := [CHashlin 8; CLists [16] 24; CAllocator].
Definition wex_m : mem :=
  <[HCTL := Ctl (HeapCtl ∅ (fun n => 65536 + 65536 * Z.of_nat n) 0)]>
  (<[8 := Tape []]> (<[16 := U]> (<[24 := Tape []]> ∅))).
Definition wex_c : cmem := CMem ∅ ∅.
Notation wex_w := (world 64 ∅ wex_cs).

Lemma wex_start : world_start wex_w ∅ wex_c wex_m.
Proof.
  split; [vm_compute; repeat constructor; set_solver|].
  split; [split; [done|split; [|done]]|].
  - split; [done|]. intros l ->%elem_of_list_singleton. exists U. split; [done|by left].
  - split; [intros a v Hv; by rewrite lookup_empty in Hv|].
    split; [eexists; split; [apply lookup_insert|done]|]. split; [apply map_empty_subseteq|done].
Qed.

(** The comparison reads the key, the first word of the object. *)
Definition wex_find (arg obj : Z) : M Z := v ← load obj; mret (v - arg).

Definition wex_table (o : top) : p_op wex_w := inl o.
Definition wex_list (o : lop) : p_op wex_w := inr (inl o).
Definition wex_pool (o : pop) : p_op wex_w := inr (inr (inl o)).
Definition wex_mem (o : mop) : p_op wex_w := inr (inr (inr o)).

(** The client gets an object [p] from malloc: a key, a node of the list, a
    node of the table and one more word; and an object [q] from the allocator:
    a node of the list and one more word.  It puts them in the list, and [p]
    in the table too.  It looks up [p] by its key, reads both objects, empties
    the list, frees [q], and has [p] freed by a visit of the table. *)
Definition wex_use (p q : Z) : list (p_op wex_w) :=
  [wex_mem (MWrite p 7); wex_mem (MWrite (p + 72) 9); wex_mem (MWrite (q + 32) 5);
   wex_list (LInsertTail 16 (p + 8) p); wex_table (TInsert (p + 40) p 7); wex_list (LInsertTail 16 q q);
   wex_table (TSearch wex_find (fun _ _ => 0) 7 7); wex_list (LWalk 16);
   wex_mem (MRead (p + 72)); wex_mem (MRead (q + 32));
   wex_list (LRemove 16 (p + 8)); wex_list (LRemove 16 q);
   wex_pool (PFree q); wex_pool PDone; wex_table TForeachFree; wex_table TDone].
Definition wex_client : prog (p_op wex_w) (p_out wex_w) :=
  Do (wex_table (TInit 0)) (fun _ => Do (wex_list (LInit 16)) (fun _ => Do (wex_pool (PInit 40 8)) (fun _ =>
  Do (wex_mem (MMalloc 10)) (fun a => Do (wex_pool PAlloc) (fun b =>
    match a, b with
    | inr (inr (inr (MWord p))), inr (inr (inl (POWord q))) => prog_of_list (wex_use p q)
    | _, _ => Done
    end))))).

(** The answers, and the live heap blocks at the end *)
Definition run_result {A B C : Type} (x : res (A * list (B * C))) : list C * option (list (Z * region)) :=
  match x with
  | Ok r m' => (r.2.*2, match m' !! HCTL with Some (Ctl h) => Some (map_to_list (hc_live h)) | _ => None end)
  | _ => ([], None)
  end.
Definition wex_result : list (p_out wex_w) * option (list (Z * region)) :=
  run_result (run (p_step wex_w) (p_cst0 wex_w) wex_client wex_m).
Definition wex_expected : list (p_out wex_w) :=
  [inl TONone; inr (inl ONone); inr (inr (inl PONone));
   inr (inr (inr (MWord 131072))); inr (inr (inl (POWord 200576)));
   inr (inr (inr MNone)); inr (inr (inr MNone)); inr (inr (inr MNone));
   inr (inl ONone); inl TONone; inr (inl ONone);
   inl (TOFound 131072 [7; 131072]); inr (inl (ONodes [(131080, 131072); (200576, 200576)]));
   inr (inr (inr (MWord 9))); inr (inr (inr (MWord 5)));
   inr (inl (OWord 131072)); inr (inl (OWord 200576));
   inr (inr (inl PONone)); inr (inr (inl PONone)); inl (TOData [131072]); inl TONone].
Lemma wex_run : wex_result = (wex_expected, Some []).
Proof. vm_compute. reflexivity. Qed.

(** ** The client is allowed *)
Lemma words_other l u ws a (v : option Z) : a ∉ l → a ∉ u → ws !! a = Some v → (unknown l ∪ without u ws) !! a = Some v.
Proof.
  intros Hl Hu Hv. rewrite lookup_union_r; [by apply map_filter_lookup_Some|].
  apply not_elem_of_list_to_map_1. intros (x & -> & (b & -> & Hb)%elem_of_list_fmap)%elem_of_list_fmap. done.
Qed.
Lemma words_back l u ws a : a ∈ l → is_Some ((unknown l ∪ without u ws) !! a).
Proof.
  intros Hl. destruct (unknown l !! a) as [v|] eqn:E; [by erewrite lookup_union_Some_l|].
  exfalso. apply not_elem_of_list_to_map_2 in E. apply E, elem_of_list_fmap. exists (a, None). split; [done|].
  apply elem_of_list_fmap. by exists a.
Qed.
Lemma words_some l u ws a : a ∉ u → is_Some (ws !! a) → is_Some ((unknown l ∪ without u ws) !! a).
Proof.
  intros Hu [v Hv]. destruct (decide (a ∈ l)); [by apply words_back|]. exists v. by apply words_other.
Qed.

Lemma words_same l u (ws : gmap Z (option Z)) a : a ∉ l → a ∉ u → (unknown l ∪ without u ws) !! a = ws !! a.
Proof.
  intros Hl Hu. destruct (ws !! a) as [v|] eqn:E; [by apply words_other|].
  apply lookup_union_None. split.
  - destruct (unknown l !! a) eqn:E'; [|done]. exfalso. apply Hl. apply elem_of_list_to_map_2, elem_of_list_fmap in E'.
    by destruct E' as (b & [= -> ->] & Hb).
  - destruct (without u ws !! a) eqn:E'; [|done]. apply without_lookup in E'. congruence.
Qed.

(** The states of the example *)
Definition wex_t (T : tab) : tstate := TState ∅ T ∅.
Definition wex_l (xs : list (Z * Z)) : lstate := LState ∅ {[16 := Some xs]} ∅.
Definition wex_s (T : tab) (xs : list (Z * Z)) (Q : qstate) : p_sst wex_w := (wex_t T, (wex_l xs, (Q, tt))).
Notation wex_ok c s k := (allowed (wpre wex_w) (wpost wex_w) (c, s) k).

Definition node_good (p : Z) : Prop := 0 < p ∧ p mod 8 = 0 ∧ p + 32 ≤ 2 ^ 64.

Lemma wex_memory c s o k : mpre c tt o → (∀ a c', mpost c tt o a c' tt → wex_ok c' s (k (inr (inr (inr a))))) →
  wex_ok c s (Do (wex_mem o) k).
Proof.
  intros Hpre Hk. split; [exact Hpre|]. intros [x|[x|[x|x]]] [c' (s1 & s2 & s3 & [])]; [by intros []|by intros [[] _]|by intros [[[] _] _]|].
  destruct s as (t1 & t2 & t3 & []). intros [[[Hp H3] H2] H1]. simpl in Hp, H1, H2, H3. rewrite H1 H2 H3. by apply Hk.
Qed.
Lemma wex_write ws bs s a v k : is_Some (ws !! a) →
  wex_ok (CMem (<[a := Some v]> ws) bs) s k → wex_ok (CMem ws bs) s (Do (wex_mem (MWrite a v)) (λ _, k)).
Proof. intros Ha Hk. apply wex_memory; [done|]. intros x c' [_ ->]. done. Qed.
Lemma wex_read ws bs s a v k : ws !! a = Some (Some v) →
  wex_ok (CMem ws bs) s k → wex_ok (CMem ws bs) s (Do (wex_mem (MRead a)) (λ _, k)).
Proof. intros Ha Hk. apply wex_memory; [by exists v|]. intros x c' (w & _ & _ & ->). done. Qed.

Lemma wex_allocator c T xs Q o k : pool_pre c Q o →
  (∀ a c' Q', pool_post c Q o a c' Q' → wex_ok c' (wex_s T xs Q') (k (inr (inr (inl a))))) →
  wex_ok c (wex_s T xs Q) (Do (wex_pool o) k).
Proof.
  intros Hpre Hk. split; [exact Hpre|]. intros [x|[x|[x|x]]] [c' (s1 & s2 & s3 & [])]; [by intros []|by intros [[] _]| |by intros [[[] _] _]].
  intros [[[Hp _] H2] H1]. simpl in Hp, H1, H2. rewrite H1 H2. by apply Hk.
Qed.

Lemma wex_lists c T xs Q o k : container_pre 64 ∅ (list_kind 64 [16] 24) c (wex_l xs) o →
  (∀ a s' c', container_post (list_kind 64 [16] 24) c (wex_l xs) o a c' s' → wex_ok c' (wex_t T, (s', (Q, tt))) (k (inr (inl a)))) →
  wex_ok c (wex_s T xs Q) (Do (wex_list o) k).
Proof.
  intros Hpre Hk. split; [exact Hpre|]. intros [x|[x|[x|x]]] [c' (s1 & s2 & s3 & [])]; [by intros []| |by intros [[] _]|by intros [[] _]].
  intros [[Hp H2] H1]. simpl in Hp, H1, H2. rewrite H1. injection H2 as ->. by apply Hk.
Qed.

Lemma wex_tables c T xs Q o k : container_pre 64 ∅ (table_kind hashlin_table 64 8) c (wex_t T) o →
  (∀ a s' c', container_post (table_kind hashlin_table 64 8) c (wex_t T) o a c' s' → wex_ok c' (s', (wex_l xs, (Q, tt))) (k (inl a))) →
  wex_ok c (wex_s T xs Q) (Do (wex_table o) k).
Proof.
  intros Hpre Hk. split; [exact Hpre|]. intros [x|x] [c' (s1 & s2)]; [|by intros []].
  intros [Hp H2]. simpl in Hp, H2. rewrite H2. by apply Hk.
Qed.

(** The nodes that an operation gives back: none. *)
Lemma no_words ws : unknown (elements (∅ : gset Z) ≫= node_cells 4) ∪ without [] ws = ws.
Proof. rewrite elements_empty without_nil. by rewrite left_id_L. Qed.
Lemma wex_l_length xs : length (k_elems (list_kind 64 [16] 24) (wex_l xs)) = length xs.
Proof. simpl. by rewrite map_to_list_singleton /= app_nil_r. Qed.

Lemma wex_list_insert ws bs T xs Q p d k : node_good p → (length xs ≤ 40)%nat →
  (∀ a, a ∈ node_cells 4 p → is_Some (ws !! a)) →
  (∀ ws', (∀ a, a ∉ node_cells 4 p → ws' !! a = ws !! a) → wex_ok (CMem ws' bs) (wex_s T (xs ++ [(p, d)]) Q) k) →
  wex_ok (CMem ws bs) (wex_s T xs Q) (Do (wex_list (LInsertTail 16 p d)) (λ _, k)).
Proof.
  intros Hp Hlen Hw Hk. apply wex_lists.
  - split; [intros q ->%elem_of_list_singleton; exact Hp|]. split; [set_solver|]. split; [constructor|].
    split. { intros a Ha. apply Hw. exact Ha. }
    split; [rewrite wex_l_length; lia|]. simpl. split; [set_solver|]. exists xs. apply lookup_singleton.
  - intros x s c' (s' & (ys & Hys & _ & Hs') & Hs2 & Hc'). simpl in *.
    rewrite /has_list /= lookup_singleton in Hys. injection Hys as <-. subst s' s c'. simpl.
    rewrite insert_singleton. apply (Hk (unknown _ ∪ without _ ws)). intros a Ha.
    assert (({[p]} ∪ ∅) ∖ {[p]} = (∅ : gset Z)) as -> by set_solver.
    apply words_same; [by rewrite elements_empty; apply not_elem_of_nil|exact Ha].
Qed.

Lemma wex_list_remove ws bs T p d ys Q k : (length ys ≤ 40)%nat → p ∉ ys.*1 →
  (∀ ws', (∀ a, a ∉ node_cells 4 p → ws' !! a = ws !! a) → (∀ a, a ∈ node_cells 4 p → is_Some (ws' !! a)) →
     wex_ok (CMem ws' bs) (wex_s T ys Q) k) →
  wex_ok (CMem ws bs) (wex_s T ((p, d) :: ys) Q) (Do (wex_list (LRemove 16 p)) (λ _, k)).
Proof.
  intros Hlen Hn Hk. apply wex_lists.
  - split; [set_solver|]. split; [set_solver|]. split; [constructor|]. split; [set_solver|].
    split; [rewrite wex_l_length /=; lia|].
    exists ((p, d) :: ys). split; [apply lookup_singleton|simpl; set_solver].
  - intros x s c' (s' & (xs & d' & zs & Hys & _ & Hs') & Hs2 & Hc'). simpl in *.
    rewrite /has_list /= lookup_singleton in Hys. injection Hys as Hys.
    assert (xs = [] ∧ zs = ys) as [-> ->].
    { destruct xs as [|? xs]; [by injection Hys as _ <-|]. exfalso. injection Hys as _ ->. apply Hn. rewrite fmap_app. set_solver. }
    subst s' s c'. simpl. rewrite insert_singleton. apply (Hk (unknown _ ∪ without _ ws)).
    + assert (∅ ∪ {[p]} = ({[p]} : gset Z)) as -> by set_solver. rewrite elements_singleton.
      intros a Ha. apply words_same; [exact Ha|apply not_elem_of_nil].
    + assert (∅ ∪ {[p]} = ({[p]} : gset Z)) as -> by set_solver. rewrite elements_singleton.
      intros a Ha. by apply words_back.
Qed.

Lemma wex_walk ws bs T xs Q k : (length xs ≤ 40)%nat →
  wex_ok (CMem ws bs) (wex_s T xs Q) k →
  wex_ok (CMem ws bs) (wex_s T xs Q) (Do (wex_list (LWalk 16)) (λ _, k)).
Proof.
  intros Hlen Hk. apply wex_lists.
  - split; [set_solver|]. split; [set_solver|]. split; [constructor|]. split; [set_solver|].
    split; [rewrite wex_l_length; lia|]. exists xs. apply lookup_singleton.
  - intros x s c' (s' & (ys & _ & _ & Hs') & Hs2 & Hc'). simpl in *. subst s' s c'. change (used _ _ _ _) with (@nil Z).
    cbn [ls_free]. change (list_to_set _) with (∅ : gset Z). by rewrite no_words.
Qed.

Lemma wex_table_insert ws bs es xs Q p d h k : node_good p → (length es ≤ 40)%nat → word h →
  (∀ a, a ∈ node_cells 4 p → is_Some (ws !! a)) →
  (∀ ws', (∀ a, a ∉ node_cells 4 p → ws' !! a = ws !! a) → wex_ok (CMem ws' bs) (wex_s (TabEs (es ++ [Ent p d h])) xs Q) k) →
  wex_ok (CMem ws bs) (wex_s (TabEs es) xs Q) (Do (wex_table (TInsert p d h)) (λ _, k)).
Proof.
  intros Hp Hlen Hh Hw Hk. apply wex_tables.
  - split; [intros q ->%elem_of_list_singleton; exact Hp|]. split; [set_solver|]. split; [constructor|].
    split. { intros a Ha. apply Hw. exact Ha. }
    split. { simpl. rewrite fmap_length. lia. }
    split; [simpl; set_solver|]. split; [by exists es|done].
  - intros x s c' (s' & (ys & Hys & _ & Hs') & Hs2 & Hc'). simpl in *.
    injection Hys as <-. subst s' s c'. simpl.
    apply (Hk (unknown _ ∪ without _ ws)). intros a Ha.
    assert (({[p]} ∪ ∅) ∖ {[p]} = (∅ : gset Z)) as -> by set_solver.
    apply words_same; [by rewrite elements_empty; apply not_elem_of_nil|exact Ha].
Qed.

Lemma wex_search ws bs es xs Q h k : (length es ≤ 40)%nat → word h →
  (∀ e, e ∈ es → en_h e = h → ws !! en_d e = Some (Some h)) →
  wex_ok (CMem ws bs) (wex_s (TabEs es) xs Q) k →
  wex_ok (CMem ws bs) (wex_s (TabEs es) xs Q) (Do (wex_table (TSearch wex_find (λ _ _, 0) h h)) (λ _, k)).
Proof.
  intros Hlen Hh He Hk. apply wex_tables.
  - split; [set_solver|]. split; [set_solver|]. split; [constructor|]. split; [set_solver|].
    split. { simpl. rewrite fmap_length. lia. }
    split; [|done]. exists es. split; [done|]. intros e Hin Heh m Hm.
    assert (Hl : m !! en_d e = Some (W h)).
    { eapply lookup_weaken; [|exact Hm]. rewrite left_id_L. change (used _ _ _ _) with (@nil Z). rewrite without_nil /known lookup_omap (He e Hin Heh). done. }
    rewrite /wex_find /mbind /M_bind /load Hl /= Z.sub_diag. done.
  - intros x s c' (s' & [Hs' _] & Hs2 & Hc'). simpl in *. subst s' s c'. change (used _ _ _ _) with (@nil Z).
    cbn [TableSpec.ts_free]. change (list_to_set _) with (∅ : gset Z). by rewrite no_words.
Qed.

Lemma wex_foreach_free ws bs p d n h xs Q k : d ≠ 0 → bs !! d = Some (RWords n) → node_cells 4 p ⊆ obj_cells (d, n) →
  (∀ a, a ∈ obj_cells (d, n) → a ∉ node_cells 4 p → is_Some (ws !! a)) →
  (∀ ws', wex_ok (CMem ws' (delete d bs)) (wex_s TabFreed xs Q) k) →
  wex_ok (CMem ws bs) (wex_s (TabEs [Ent p d h]) xs Q) (Do (wex_table TForeachFree) (λ _, k)).
Proof.
  intros Hd Hb Hsub Hw Hk.
  assert (Hbl : block_of (CMem ws bs) (p, d) = (d, n)) by (rewrite /block_of /= Hb; done).
  apply wex_tables.
  - split; [set_solver|]. split. { intros x ->%elem_of_list_singleton. by rewrite Hbl. }
    split. { change (NoDup (obj_cells (block_of (CMem ws bs) (p, d)) ++ [])). rewrite Hbl app_nil_r.
      apply NoDup_fmap_2; [intros ???; lia|apply NoDup_seq]. }
    split.
    { intros a Ha. change (a ∈ filter (λ a, a ∉ node_cells 4 p) (obj_cells (block_of (CMem ws bs) (p, d))) ++ []) in Ha.
      rewrite Hbl app_nil_r in Ha. apply elem_of_list_filter in Ha as [Ha1 Ha2]. by apply Hw. }
    split; [simpl; lia|]. exists [Ent p d h]. split; [done|]. apply Forall_singleton. exists n. split; [|done].
    unfold objects. apply lookup_union_Some_l. simpl. by rewrite Hbl lookup_insert.
  - intros x s c' (s' & (es & es' & Hes & Hperm & _ & Hs') & Hs2 & Hc'). simpl in Hes. injection Hes as <-.
    apply Permutation_singleton_r in Hperm as ->. subst s'. simpl in Hs2, Hc'. subst s c'. apply Hk.
Qed.

Lemma wex_done c xs Q : wex_ok c (wex_s TabFreed xs Q) (Do (wex_table TDone) (λ _, Done)).
Proof.
  apply wex_tables; [|done]. split; [set_solver|]. split; [set_solver|]. split; [constructor|]. split; [set_solver|]. split; [simpl; lia|]. done.
Qed.

Definition wex_q (bs : gset Z) (fr : list Z) (own : gmap Z region) : qstate := QState (Some (40, 8)) bs fr own.

Lemma wex_node q a : a ∈ node_cells 4 q ↔ a = q ∨ a = q + 8 ∨ a = q + 16 ∨ a = q + 24.
Proof. change (node_cells 4 q) with [q + 0; q + 8; q + 16; q + 24]. rewrite !elem_of_cons elem_of_nil Z.add_0_r. tauto. Qed.

Lemma wex_use_allowed ws bs p q fr own : 0 < p → p mod 16 = 0 → p + 80 < 2 ^ 64 → bs !! p = Some (RWords 10) →
  0 < q → q mod 8 = 0 → q + 40 < 2 ^ 64 → (∀ a, a ∈ obj_cells (p, 10%nat) → a ∉ pool_cells 40 q) →
  (∀ a, a ∈ obj_cells (p, 10%nat) → is_Some (ws !! a)) → (∀ a, a ∈ pool_cells 40 q → is_Some (ws !! a)) →
  wex_ok (CMem ws bs) (wex_s (TabEs []) [] (wex_q {[q]} fr own)) (prog_of_list (wex_use p q)).
Proof.
  intros Hp Hmod Hmax Hb Hq Hqmod Hqmax Hpq Hw Hwq.
  assert (Hg : ∀ i, 0 ≤ i ≤ 5 → node_good (p + 8 * i)).
  { intros i Hi. split; [lia|]. split; [|lia]. rewrite (Z.mul_comm 8) Z_mod_plus_full.
    apply Z.mod_divide in Hmod as [z ->]; [|done]. replace (z * 16) with (z * 2 * 8) by lia. apply Z.mod_mul. done. }
  assert (Hin : ∀ a, a ∈ node_cells 4 (p + 8) ∨ a ∈ node_cells 4 (p + 40) ∨ a = p ∨ a = p + 72 ↔ a ∈ obj_cells (p, 10%nat)).
  { intros a. rewrite !wex_node. change (obj_cells (p, 10%nat)) with [p + 0; p + 8; p + 16; p + 24; p + 32; p + 40; p + 48; p + 56; p + 64; p + 72].
    rewrite !elem_of_cons elem_of_nil. lia. }
  assert (Hinq : ∀ a, a ∈ node_cells 4 q ∨ a = q + 32 ↔ a ∈ pool_cells 40 q).
  { intros a. rewrite !wex_node. change (pool_cells 40 q) with [q + 0; q + 8; q + 16; q + 24; q + 32]. rewrite !elem_of_cons elem_of_nil. lia. }
  assert (Hd1 : ∀ a, a ∈ node_cells 4 (p + 8) → a ∉ node_cells 4 (p + 40) ∧ a ≠ p ∧ a ≠ p + 72).
  { intros a. rewrite !wex_node. lia. }
  assert (Hd2 : ∀ a, a ∈ node_cells 4 (p + 40) → a ≠ p ∧ a ≠ p + 72).
  { intros a. rewrite !wex_node. lia. }
  assert (Hq32 : q + 32 ∉ node_cells 4 q) by (rewrite wex_node; lia).
  unfold wex_use. cbn [prog_of_list].
  apply wex_write; [apply Hw, Hin; tauto|]. apply wex_write; [apply lookup_insert_is_Some'; right; apply Hw, Hin; tauto|].
  apply wex_write; [rewrite !lookup_insert_is_Some'; right; right; apply Hwq, Hinq; tauto|].
  set (ws1 := <[_ := _]> (<[_ := _]> (<[_ := _]> ws))).
  assert (Hw1 : ∀ a, a ∈ obj_cells (p, 10%nat) ∨ a ∈ pool_cells 40 q → is_Some (ws1 !! a)).
  { intros a Ha. unfold ws1. rewrite !lookup_insert_is_Some'. destruct Ha; auto. }
  assert (Hqp : q + 32 ≠ p ∧ q + 32 ≠ p + 72).
  { split; intros E; (apply (Hpq (q + 32)); [apply Hin; rewrite E; tauto|apply Hinq; by right]). }
  assert (Hk1 : ws1 !! p = Some (Some 7)).
  { unfold ws1. rewrite lookup_insert_ne; [|lia]. rewrite lookup_insert_ne; [|lia]. apply lookup_insert. }
  assert (Hk2 : ws1 !! (p + 72) = Some (Some 9)).
  { unfold ws1. rewrite lookup_insert_ne; [|lia]. apply lookup_insert. }
  assert (Hk3 : ws1 !! (q + 32) = Some (Some 5)) by apply lookup_insert.
  clearbody ws1. clear ws Hw Hwq.
  assert (Hsep : ∀ a, a ∈ node_cells 4 (p + 8) ∨ a ∈ node_cells 4 (p + 40) ∨ a = p ∨ a = p + 72 → a ∉ node_cells 4 q ∧ a ≠ q + 32).
  { intros a Ha%Hin%Hpq. rewrite -Hinq in Ha. tauto. }
  apply wex_list_insert; [apply (Hg 1); lia|simpl; lia|intros a Ha; apply Hw1; left; apply Hin; tauto|].
  intros ws2 H2. apply wex_table_insert; [apply (Hg 5); lia|simpl; lia|split; lia| |].
  { intros a Ha. rewrite H2; [apply Hw1; left; apply Hin; tauto|]. intros Ha'. apply Hd1 in Ha'. tauto. }
  intros ws3 H3. apply wex_list_insert; [split; [done|split; [done|lia]]|simpl; lia| |].
  { intros a Ha. rewrite H3 ?H2; [apply Hw1; right; apply Hinq; tauto|..]; intros Ha'; by destruct (Hsep a ltac:(tauto)). }
  intros ws4 H4. cbn [app].
  assert (Hp4 : ws4 !! p = Some (Some 7)).
  { rewrite H4 ?H3 ?H2; [done|..]; [intros Ha%Hd1; tauto|intros Ha%Hd2; tauto|by apply Hsep; tauto]. }
  assert (Hr4 : ws4 !! (p + 72) = Some (Some 9)).
  { rewrite H4 ?H3 ?H2; [done|..]; [intros Ha%Hd1; tauto|intros Ha%Hd2; tauto|by apply Hsep; tauto]. }
  assert (Hq4 : ws4 !! (q + 32) = Some (Some 5)).
  { rewrite H4 ?H3 ?H2; [done|..|done]; intros Ha; by destruct (Hsep (q + 32) ltac:(tauto)). }
  apply wex_search; [simpl; lia|split; lia|by intros e ->%elem_of_list_singleton|].
  apply wex_walk; [simpl; lia|]. eapply wex_read; [exact Hr4|]. eapply wex_read; [exact Hq4|].
  apply wex_list_remove; [simpl; lia| |].
  { intros E%elem_of_list_singleton. destruct (Hsep (p + 8)) as [Hn _]; [left; apply wex_node; tauto|].
    apply Hn, wex_node. left. exact E. }
  intros ws5 H5 H5'. apply wex_list_remove; [simpl; lia|apply not_elem_of_nil|].
  intros ws6 H6 H6'. apply wex_allocator.
  { exists 40, 8. split; [done|]. split; [simpl; set_solver|]. intros a Ha%Hinq. destruct Ha as [Ha| ->]; [by apply H6'|].
    rewrite H6; [|done]. rewrite H5; [by eexists|]. intros Ha. by destruct (Hsep (q + 32) ltac:(tauto)). }
  intros x c Q (bs' & al' & [= <- <-] & _ & -> & ->). apply wex_allocator.
  { exists 40, 8. split; [done|]. simpl. set_solver. }
  intros x' c' Q' (bs' & al' & [= <- <-] & _ & -> & ->). cbn [cm_words cm_blocks].
  apply wex_foreach_free with 10%nat; [lia|done| | |].
  { intros a Ha. apply Hin. tauto. }
  { intros a Ha Hna. simpl. assert (is_Some (ws6 !! a)) as [v Hv].
    { apply Hin in Ha. rewrite H6; [|by apply Hsep]. destruct Ha as [Ha|[Ha|Ha]]; [by apply H5'|done|].
      rewrite H5; [destruct Ha as [->| ->]; eauto|]. intros Ha'%Hd1. tauto. }
    exists v. apply map_filter_lookup_Some. split.
    - apply map_filter_lookup_Some. split; [done|]. simpl. by apply Hpq.
    - simpl. rewrite difference_diag_L elements_empty. apply not_elem_of_nil. }
  intros ws7. apply wex_done.
Qed.

Lemma wex_allowed : allowed (wpre wex_w) (wpost wex_w) (wex_c, p_sst0 wex_w) wex_client.
Proof.
  split. { split; [set_solver|]. split; [set_solver|]. split; [constructor|]. split; [set_solver|]. split; [simpl; lia|]. split; [done|lia]. }
  intros [a|a] [c1 [s1 s1']]; [|by intros []]. intros [(s & [_ Hs] & Hs1 & _) Hs']. simpl in Hs1, Hs'.
  subst s. simpl in Hs1. subst s1 s1'.
  split. { split; [set_solver|]. split; [set_solver|]. split; [constructor|]. split; [set_solver|].
    split; [vm_compute; lia|eexists; apply lookup_insert]. }
  intros [x|[x|x]] [c2 (s1 & s2 & s3)]; [by intros []| |by intros [[] _]].
  intros [[(s' & (_ & ox & Hox & Hs') & Hs2 & _) H3] Ht].
  unfold lstate0 in Hox. simpl in Hox. rewrite lookup_insert in Hox. injection Hox as <-. subst s'. simpl in Hs2, Ht, H3. subst s1 s2 s3.
  rewrite insert_insert. clear. apply (wex_allocator c2 (TabEs []) []).
  { split; [done|]. split; [lia|]. split; [by right|]. split; [done|]. intros a Ha Hm. rewrite /fits_at.
    assert (padding (real_align 8) a = 0) as ->.
    { change (real_align 8) with 8. rewrite /padding. apply Z.mod_divide in Hm as [z ->]; [|done].
      replace (- (z * 16 + 8)) with ((- (2 * z + 1)) * 8) by lia. by apply Z.mod_mul. }
    vm_compute. done. }
  intros x1 c3 Q1 (_ & -> & ->). apply wex_memory; [done|]. intros x2 c4 (p & -> & Hp & Hmod & Hmax & _ & _ & _ & ->).
  apply (wex_allocator _ (TabEs []) []); [by eexists|].
  intros x3 c5 Q2 (bs & al & q & own & Hcfg & -> & _ & Hq & Hqm & Hqmax & _ & Hdis & _ & _ & -> & ->).
  injection Hcfg as <- <-. cbn [cm_words cm_blocks] in *.
  assert (Hw : ∀ a, a ∈ obj_cells (p, 10%nat) → is_Some ((unknown (region_cells p (RWords 10)) ∪ cm_words c2) !! a)).
  { intros a Ha. rewrite -(without_nil (cm_words c2)). by apply words_back. }
  cbn [qs_cfg qs_blocks qs_freed tail]. rewrite right_id_L.
  apply (wex_use_allowed _ _ p q [] own Hp Hmod Hmax); [apply lookup_insert|exact Hq|exact Hqm|exact Hqmax| | |].
  - intros a Ha Hq'. destruct (Hw a Ha) as [v Hv]. by rewrite (Hdis a Hq') in Hv.
  - intros a Ha. rewrite -(without_nil (unknown (region_cells _ _) ∪ _)). apply words_some; [apply not_elem_of_nil|]. by apply Hw.
  - intros a Ha. rewrite -(without_nil (unknown (region_cells _ _) ∪ _)). by apply words_back.
Qed.
