(** * Concrete memories and clients of the tree; a tree that is not AVL *)
From Verif Require Export TreeProps ExamplesCall.
Global Open Scope Z_scope.

(** ** Clients that respect the preconditions, decided on the operations alone *)
Definition tr_pre (om : objmap) (D : Z → bool) (live : gmap Z region) (tree : bool) (free : gset Z) (cx : (Z → Z → Z) * list (Z * Z)) (o : trop) : bool :=
  match o with
  | TrInit _ _ => true
  | TrInsert p d => tree && bool_decide (p ∈ free) && D d
  | TrRemove d | TrSearch d => tree && D d
  | TrRemoveExisting p => tree && existsb (λ x, bool_decide (x.1 = p ∧ x.2 ≠ 0)) cx.2
  | TrSearchCompare _ f k => tree && forallb (λ x, D x.2) cx.2 && forallb (λ x, forallb (λ y, bool_decide (cx.1 x.2 y.2 < 0 →
      (f k y.2 > 0 → f k x.2 > 0) ∧ (f k x.2 < 0 → f k y.2 < 0))) cx.2) cx.2
  | TrForeachFree => tree && forallb (λ x, match om !! x.1, live !! x.2 with
      | Some (d, n), Some (RWords k) => bool_decide (d = x.2 ∧ d ≠ 0 ∧ n = k) | _, _ => false end) cx.2
  | _ => tree
  end.
Definition tr_free (free : gset Z) (cx : (Z → Z → Z) * list (Z * Z)) (o : trop) : gset Z :=
  match o with
  | TrInit _ _ => free ∪ list_to_set cx.2.*1
  | TrInsert p d => if decide (Exists (λ x, cx.1 d x.2 = 0) cx.2) then free else free ∖ {[p]}
  | TrRemove d => free ∪ list_to_set (filter (λ x, cx.1 d x.2 = 0) cx.2).*1
  | TrRemoveExisting p => free ∪ {[p]}
  | _ => free
  end.
Definition tr_tree (tree : bool) (o : trop) : bool :=
  match o with TrInit _ _ => true | TrForeachFree => false | _ => tree end.
Definition tr_live (live : gmap Z region) (cx : (Z → Z → Z) * list (Z * Z)) (o : trop) : gmap Z region :=
  match o with TrForeachFree => free_all cx.2.*2 live | _ => live end.
Fixpoint tr_check om D live tree free cx (ops : list trop) : bool :=
  match ops with
  | [] => true
  | o :: ops => tr_pre om D live tree free cx o && tr_check om D (tr_live live cx o) (tr_tree tree o) (tr_free free cx o) (tset_step cx o) ops
  end.
Definition op_cmp_ok (K : mem) (D : Z → bool) (o : trop) : Prop :=
  match o with
  | TrInit f c => total_preorder c ∧ ∀ a b, D a = true → D b = true → reads K f c a b
  | TrSearchCompare f g k => ∀ d, D d = true → reads K f g k d
  | _ => True
  end.

Lemma free_all_perm (l k : list Z) (h : gmap Z region) : l ≡ₚ k → free_all l h = free_all k h.
Proof. rewrite /free_all. induction 1; simpl; [done|by f_equal|apply delete_commute|congruence]. Qed.

Lemma tr_check_step om K D s o a s' cx tree live :
  tgood s cx → tree = bool_decide (is_Some (ts_tree s)) → ts_live s = live → trboth om K D s o a s' →
  tr_tree tree o = bool_decide (is_Some (ts_tree s')) ∧ ts_live s' = tr_live live cx o ∧ ts_free s' = tr_free (ts_free s) cx o.
Proof.
  destruct cx as [c0 ys]. intros (Hp & Hnd & Hfr & Hc) -> <- [Hpre Hpost]. simpl in Hp, Hc.
  destruct o; simpl in Hpre, Hpost |- *.
  - destruct Hpost as [_ ->]. split; [done|]. split; [done|]. simpl. rewrite /tree_nodes. f_equal. apply leibniz_equiv.
    intros x. rewrite !elem_of_list_to_set Hp /telems. by destruct (ts_tree s) as [[??]|].
  - destruct Hpost as (c & xs & z & calls & Hs & _ & _ & Hcase). destruct (Hc _ _ Hs) as (-> & Htp & Hinc).
    rewrite Hs. rewrite /telems Hs in Hp.
    destruct Hcase as [(q & Hq & Hz & ->)|(l & r & -> & Hl & Hr & -> & ->)].
    + rewrite Hs decide_True //. rewrite Hp. apply Exists_exists. exists (q, z). done.
    + rewrite decide_False //. rewrite Hp. intros ([q e] & Hin & He)%Exists_exists. simpl in He. rewrite Forall_forall in Hl. rewrite Forall_forall in Hr.
      apply elem_of_app in Hin as [Hin|Hin].
      * apply Hl in Hin. simpl in Hin. apply (cmp_eq c Htp) in He. lia.
      * apply Hr in Hin. simpl in Hin. lia.
  - destruct Hpost as (c & xs & z & calls & Hs & _ & _ & Hcase). destruct (Hc _ _ Hs) as (-> & Htp & Hinc).
    rewrite Hs. rewrite /telems Hs in Hp Hnd.
    destruct Hcase as [(l & q & r & -> & Hz & ->)|(Hall & _ & ->)].
    + split; [done|]. split; [done|]. simpl. f_equal. apply leibniz_equiv. intros x. rewrite elem_of_singleton elem_of_list_to_set.
      rewrite elem_of_list_fmap. split.
      * intros ->. exists (q, z). split; [done|]. apply elem_of_list_filter. split; [done|]. rewrite Hp. set_solver.
      * intros ([p e] & -> & [He Hin]%elem_of_list_filter). simpl in *. rewrite Hp in Hin.
        assert (Hez : c e z = 0).
        { destruct Htp as [Ha Ht]. pose proof (Ha e z). pose proof (Ha d z). pose proof (Ha d e).
          pose proof (Ht e d z). pose proof (Ht z d e). lia. }
        assert ((p, e) = (q, z)) as [= -> ->]; [|done].
        eapply increasing_unique; [exact Htp|exact Hinc|done|set_solver|done].
    + rewrite Hs. split; [done|]. split; [done|]. apply leibniz_equiv. intros x. rewrite elem_of_union elem_of_list_to_set elem_of_list_fmap.
      split; [by left|]. intros [?|([p e] & -> & [He Hin]%elem_of_list_filter)]; [done|]. rewrite Hp in Hin. rewrite Forall_forall in Hall.
      by specialize (Hall _ Hin).
  - destruct Hpost as (c & l & d & r & calls & Hs & _ & _ & ->). by rewrite Hs.
  - destruct Hpost as (c & xs & z & calls & Hs & _ & _ & -> & _). done.
  - destruct Hpost as (c & xs & z & calls & Hs & _ & _ & -> & _). done.
  - destruct Hpost as (c & xs & Hs & _ & ->). done.
  - destruct Hpost as (c & xs & Hs & _ & ->). done.
  - destruct Hpost as (c & xs & Hs & _ & ->). done.
  - destruct Hpost as (c & xs & Hs & _ & ->). done.
  - destruct Hpost as (c & xs & Hs & _ & ->). split; [done|]. split; [|done]. simpl. apply free_all_perm.
    rewrite /telems Hs in Hp. by rewrite Hp.
Qed.

Lemma tr_check_pre om K D s o cx : op_cmp_ok K D o →
  tgood s cx → tr_pre om D (ts_live s) (bool_decide (is_Some (ts_tree s))) (ts_free s) cx o = true → trpre om K (λ d, D d = true) s o.
Proof.
  destruct cx as [c0 ys]. intros Hin (Hp & Hnd & Hfr & Hc) Hpre. simpl in Hp, Hc.
  destruct o; simpl in Hpre |- *; try (by apply bool_decide_eq_true in Hpre); try done;
    apply andb_prop in Hpre as [H1 H2].
  - apply andb_prop in H1 as [H1 H3]. apply bool_decide_eq_true in H1, H3. done.
  - apply bool_decide_eq_true in H1. done.
  - apply bool_decide_eq_true in H1. destruct H1 as [[c xs] Hs]. rewrite /telems Hs in Hp. apply existsb_exists in H2 as ([q d] & Hx & H2).
    apply bool_decide_eq_true in H2 as [Hq Hd]. simpl in *. subst q. apply elem_of_list_In in Hx. rewrite Hp in Hx. by exists c, xs, d.
  - apply bool_decide_eq_true in H1. done.
  - apply andb_prop in H1 as [H1 H3]. apply bool_decide_eq_true in H1. destruct H1 as [[c xs] Hs]. rewrite /telems Hs in Hp.
    destruct (Hc _ _ Hs) as [-> _]. exists c, xs. split; [done|]. split.
    2:{ intros x (y & -> & Hy)%elem_of_list_fmap. apply Hin. rewrite forallb_forall in H3. apply H3. apply elem_of_list_In. by rewrite Hp. }
    intros x y Hx Hy. rewrite -Hp in Hx. rewrite -Hp in Hy.
    rewrite forallb_forall in H2. apply elem_of_list_In in Hx. apply elem_of_list_In in Hy. specialize (H2 x Hx). rewrite forallb_forall in H2.
    specialize (H2 y Hy). by apply bool_decide_eq_true in H2.
  - apply bool_decide_eq_true in H1. destruct H1 as [[c xs] Hs]. rewrite /telems Hs in Hp. exists c, xs. split; [done|]. apply Forall_forall. intros x Hx.
    rewrite -Hp in Hx. rewrite forallb_forall in H2. apply elem_of_list_In in Hx. specialize (H2 x Hx).
    destruct (om !! x.1) as [[d n]|] eqn:Ho; [|done]. destruct (ts_live s !! x.2) as [[k|k]|] eqn:Hl; try done.
    apply bool_decide_eq_true in H2 as (-> & H0 & ->). by exists k.
Qed.

Lemma tr_check_allowed om K D ops : ∀ live tree free cx s, Forall (op_cmp_ok K D) ops → tr_check om D live tree free cx ops = true →
  tgood s cx → tree = bool_decide (is_Some (ts_tree s)) → ts_live s = live → ts_free s = free →
  allowed (trpre om K (λ d, D d = true)) trpost s (prog_of_list ops).
Proof.
  induction ops as [|o ops IH]; intros live tree free cx s; [done|].
  intros [Hi His]%Forall_cons [Hpre Hck]%andb_prop Hg -> <- <-.
  pose proof (tr_check_pre om K D s o cx Hi Hg Hpre) as Hpre'. split; [done|].
  intros a s' Hpost. assert (Hb : trboth om K (λ d, D d = true) s o a s') by done.
  destruct (tr_check_step om K _ s o a s' cx _ _ Hg eq_refl eq_refl Hb) as (H1 & H2 & H3).
  eapply IH; [exact His|exact Hck|by eapply tgood_step|done|done|done].
Qed.

Lemma tr_check_start om K D live ops : Forall (op_cmp_ok K D) ops → tr_check om D live false (dom om) (tset []) ops = true →
  allowed (trpre om K (λ d, D d = true)) trpost (trstate0 om live) (prog_of_list ops).
Proof.
  intros Hi H. eapply tr_check_allowed; [exact Hi|exact H| |done|done|done].
  split; [done|]. split; [constructor|]. split; [set_solver|done].
Qed.

(** ** A client *)
Lemma ex_tree_start : tree_start ex_om ex_K ex_t ex_live ex_m.
Proof.
  split; [apply ex_client_ok|split; [done|split]].
  - decide_by_compute.
  - intros a Ha. exists U. split; [|by left]. pose proof ex_cells_m as HF. rewrite Forall_forall in HF. auto.
  - eexists. split; [apply lookup_insert|done].
  - apply (ex_separate_m [HCTL; ex_t]). vm_compute (_ ++ _). repeat constructor.
Qed.

(** The data that have a key at [d + 4008], which the comparison reads. *)
Definition ex_D (d : Z) : Prop := ex_haskey 4008 d = true.

(** compares only the tens of the halved key *)
Definition ex_kcoarse (k d : Z) : M Z := x ← load (d + 4008); mret (k - x / 20).
Definition ex_coarse (k d : Z) : Z := k - ex_key 4008 d / 20.
Lemma ex_kcoarse_reads k d : ex_haskey 4008 d = true → reads ex_K ex_kcoarse ex_coarse k d.
Proof. intros Hd m Hm. unfold ex_kcoarse, mbind, M_bind. rewrite !ex_load //. Qed.
Ltac ex_ops_ok := repeat (constructor; [first [exact I|split; [apply ex_cmp_order|by apply ex_kcmp_reads]|intros d Hd; by apply ex_kcoarse_reads]|]); constructor.

Definition ex_tree_ops : list trop :=
  [TrInit (ex_kcmp 4008) (ex_cmp 4008); TrInsert 3008 3000; TrInsert 1008 1000; TrInsert 2008 2000; TrInsert 4008 2000; TrInsert 4008 4000;
   TrSearch 2000; TrSearch 2504; TrSearchCompare ex_kcoarse ex_coarse 1;
   TrSearchCompare ex_kcoarse ex_coarse 5; TrCount; TrUsage;
   TrForeachArg 9; TrRemove 2000; TrRemove 2000; TrRemoveExisting 4008; TrForeach; TrInsert 4008 4000; TrForeachFree].
Definition ex_tree_client : prog trop trout := prog_of_list ex_tree_ops.

Lemma ex_tree_allowed : allowed (trpre ex_om ex_K ex_D) trpost (trstate0 ex_om ex_live) ex_tree_client.
Proof.
  apply (tr_check_start _ _ (ex_haskey 4008)).
  - ex_ops_ok.
  - vm_compute. exact eq_refl.
Qed.

Definition ex_tree_answers : list trout :=
  match run (trstep 8 ex_t) None ex_tree_client ex_m with Ok r _ => r.2.*2 | _ => [] end.
Lemma ex_tree_run : ex_tree_answers =
  [TrNone; TrFound 3000 []; TrFound 1000 [1000; 3000]; TrFound 2000 [2000; 3000; 2000; 1000];
   TrFound 2000 [2000; 3000; 2000; 1000; 2000; 2000]; TrFound 4000 [4000; 3000];
   TrFound 2000 [2000; 3000; 2000; 1000; 2000; 2000]; TrFound 0 [2504; 3000; 2504; 1000; 2504; 2000];
   TrFound 3000 [1; 3000]; TrFound 0 [5; 3000; 5; 4000]; TrWord 4; TrWord 128;
   TrData [9; 1000; 9; 2000; 9; 3000; 9; 4000];
   TrFound 2000 [2000; 3000; 2000; 1000; 2000; 2000]; TrFound 0 [2000; 3000; 2000; 1000];
   TrFound 4000 [4000; 3000; 4000; 4000]; TrData [1000; 3000]; TrFound 4000 [4000; 3000]; TrData [1000; 3000; 4000]].
Proof. vm_compute. reflexivity. Qed.

(** The same client, counting the calls of tommy_tree_balance *)
Lemma allowed_n {op out sst} (pre : sst → op → Prop) (post : sst → op → out → sst → Prop) ops : ∀ s,
  allowed pre post s (prog_of_list ops) → allowed pre (λ s o (a : out * Z) s', post s o a.1 s') s (prog_of_list ops).
Proof. induction ops as [|o ops IH]; intros s; [done|]. intros [Hp Ha]. split; [done|]. intros a s' Hs'. by eapply IH, Ha. Qed.
Lemma ex_tree_allowed_n : allowed (trpre ex_om ex_K ex_D) (λ s o a s', trpost s o a.1 s') (trstate0 ex_om ex_live)
  (prog_of_list (out:=trout * Z) ex_tree_ops).
Proof. exact (allowed_n _ _ _ _ ex_tree_allowed). Qed.
Definition ex_tree_counts : list Z :=
  match run (trstep_n 8 ex_t) None (prog_of_list ex_tree_ops) ex_m with Ok r _ => (snd ∘ snd) <$> r.2 | _ => [] end.
Lemma ex_tree_counts_run : ex_tree_counts = [0; 0; 1; 2; 2; 1; 0; 0; 0; 0; 0; 0; 0; 2; 2; 1; 0; 1; 0].
Proof. vm_compute. reflexivity. Qed.

(** Seven elements *)
Definition ex7_objs : list (Z * (Z * nat)) := (λ i : Z, (1000 * i + 8, (1000 * i, 6%nat))) <$> [1; 2; 3; 4; 5; 6; 7].
Definition ex7_om : objmap := list_to_map ex7_objs.
Definition ex7_m : mem :=
  <[HCTL := Ctl (HeapCtl ∅ (λ n, 8192 + 16384 * Z.of_nat n) 0)]> (
  <[ex_t := Tape []]> (list_to_map ((λ a, (a, U)) <$> (po ← ex7_objs; obj_cells po.2)))).
Lemma ex7_start : tree_start ex7_om ∅ ex_t ∅ ex7_m.
Proof.
  assert (Hp : objs_cells ex7_om ≡ₚ (po ← ex7_objs; obj_cells po.2)).
  { unfold objs_cells, ex7_om. rewrite map_to_list_to_map; [decide_by_compute|decide_by_compute]. }
  split; [split; [|split]|split; [unfold ex7_m; rewrite lookup_insert_ne; [apply lookup_insert|done]|split]].
  - clear Hp. intros p o Ho. unfold ex7_om in Ho. apply elem_of_list_to_map_2 in Ho. vm_compute in Ho.
    repeat (apply elem_of_cons in Ho as [[= -> ->]|Ho]; [split; [lia|split; [done|split; [lia|]]];
      intros a; vm_compute node_cells; vm_compute obj_cells; set_solver|]).
    by apply elem_of_nil in Ho.
  - rewrite Hp. decide_by_compute.
  - intros a. rewrite Hp. intros Ha. exists U. split; [|by left]. clear Hp.
    assert (HF : Forall (λ a, a ≠ HCTL ∧ a ≠ ex_t) (po ← ex7_objs; obj_cells po.2)) by decide_by_compute.
    rewrite Forall_forall in HF. destruct (HF a Ha) as [H1 H2]. unfold ex7_m. rewrite lookup_insert_ne; [rewrite lookup_insert_ne; [|congruence]|congruence].
    apply elem_of_list_to_map_1; [decide_by_compute|]. apply elem_of_list_fmap. by exists a.
  - exists (HeapCtl ∅ (λ n, 8192 + 16384 * Z.of_nat n) 0). split; [apply lookup_insert|done].
  - split; [apply map_empty_subseteq|done].
Qed.
Definition ex7_ops : list trop := TrInit (λ a b, mret (a - b)) (λ a b, a - b) :: ((λ i : Z, TrInsert (1000 * i + 8) i) <$> [1; 2; 3; 4; 5; 6; 7]).
Lemma ex7_allowed : allowed (trpre ex7_om ∅ (λ _, true = true)) trpost (trstate0 ex7_om ∅) (prog_of_list ex7_ops).
Proof.
  apply (tr_check_start _ _ (λ _, true)).
  - repeat (constructor; [first [exact I|split; [split; intros; lia|done]]|]). constructor.
  - vm_compute. exact eq_refl.
Qed.
Lemma ex7_size : Z.log2 (Z.of_nat (length (tset ex7_ops).2) + 1) = 3.
Proof. vm_compute. reflexivity. Qed.

(** ** Not a standard AVL tree: the new leaf has index 0, so its parent looks
    balanced; 3000, 2000, 1000 inserted in this order make a chain. *)
Definition ex_chain : prog trop trout :=
  prog_of_list [TrInit (ex_kcmp 4008) (ex_cmp 4008); TrInsert 3008 3000; TrInsert 2008 2000; TrInsert 1008 1000].
Lemma ex_chain_allowed : allowed (trpre ex_om ex_K ex_D) trpost (trstate0 ex_om ex_live) ex_chain.
Proof.
  apply (tr_check_start _ _ (ex_haskey 4008)); [ex_ops_ok|vm_compute; exact eq_refl].
Qed.

Definition is_word (m : mem) (a z : Z) : bool := match m !! a with Some (W v) => bool_decide (v = z) | _ => false end.
Lemma is_word_true m a z : is_word m a z = true → m !! a = Some (W z).
Proof. rewrite /is_word. destruct (m !! a) as [[v| | | |]|]; try done. intros H. apply bool_decide_eq_true in H. by subst. Qed.
Definition ex_chain_end : bool :=
  match run (trstep 8 ex_t) None ex_chain ex_m with
  | Ok (Some st, _) m' => bool_decide (tr_root st = 3008) && is_word m' (f_next 3008) 0 && is_word m' (f_prev 3008) 2008 &&
      is_word m' (f_prev 2008) 1008
  | _ => false
  end.
Lemma ex_chain_run : ex_chain_end = true.
Proof. vm_compute. exact eq_refl. Qed.

Lemma chain_not_avl m T : root T = 3008 → tree_at m T → m !! f_next 3008 = Some (W 0) → m !! f_prev 3008 = Some (W 2008) →
  m !! f_prev 2008 = Some (W 1008) → ¬ height_balanced 1 T.
Proof.
  destruct T as [|p d i l r]; [done|]. simpl root. intros -> (_ & Hn & Hv & _ & _ & Hl & Hr) Hn' Hv' Hv2.
  rewrite Hn in Hn'. injection Hn' as Hn'. rewrite Hv in Hv'. injection Hv' as Hv'.
  destruct r as [|q ? ? ? ?]; [|simpl in Hn'; destruct Hr as [Hq _]; lia].
  destruct l as [|q e j ll lr]; [done|]. simpl in Hv'. subst q. destruct Hl as (_ & _ & Hw & _ & _ & Hll & _).
  rewrite Hw in Hv2. injection Hv2 as Hv2. destruct ll; [done|]. simpl. lia.
Qed.

Lemma tree_avl_refuted : ¬ after_any_tree_history (λ _ cs _ m', ∀ st, cs = Some st →
  ∃ T, tr_root st = root T ∧ tree_at m' T ∧ height_balanced 1 T).
Proof.
  intros H. assert (Hsz : (size ex_om + 4 ≤ 8)%nat) by (vm_compute; lia).
  specialize (H ex_om ex_K ex_D ex_t ex_live ex_m 8%nat ex_chain ex_tree_start Hsz ex_chain_allowed).
  pose proof ex_chain_run as Hr. rewrite /ex_chain_end in Hr. unfold succeeds in H.
  destruct (run (trstep 8 ex_t) None ex_chain ex_m) as [[[st|] tr] m'| | |]; try done.
  repeat (apply andb_prop in Hr as [Hr ?]). apply bool_decide_eq_true in Hr.
  destruct (H st eq_refl) as (T & HT & Hat & Hb). rewrite Hr in HT.
  by eapply chain_not_avl; [symmetry; exact HT|exact Hat|apply is_word_true..|exact Hb].
Qed.

(** ** A tree for a callback that destroys the node it is called with *)
Definition ex_T : tree :=
  Node 2008 2000 2 (Node 1008 1000 1 Leaf Leaf) (Node 4008 4000 2 (Node 3008 3000 0 Leaf Leaf) Leaf).
Definition ex_tnode (p nx pv d i : Z) : list (Z * cell) :=
  [(f_next p, W nx); (f_prev p, W pv); (f_data p, W d); (f_index p, W i)].
Definition ex_tm : mem := list_to_map (
  [(ex_t, Tape [])] ++ ex_tnode 2008 4008 1008 2000 2 ++ ex_tnode 1008 0 0 1000 1 ++ ex_tnode 4008 0 3008 4000 2 ++ ex_tnode 3008 0 0 3000 0).
Fixpoint tree_atb (m : mem) (t : tree) : bool :=
  match t with
  | Leaf => true
  | Node p d i l r => bool_decide (0 < p) && is_word m (f_next p) (root r) && is_word m (f_prev p) (root l) &&
      is_word m (f_data p) d && is_word m (f_index p) i && tree_atb m l && tree_atb m r
  end.
Lemma tree_atb_ok m t : tree_atb m t = true → tree_at m t.
Proof.
  induction t as [|p d i l IHl r IHr]; [done|]. cbn [tree_atb tree_at]. intros H. repeat (apply andb_prop in H as [H ?]).
  apply bool_decide_eq_true in H. split; [done|]. do 4 (split; [by apply is_word_true|]). auto.
Qed.
Lemma ex_T_at : tree_at ex_tm ex_T.
Proof. apply tree_atb_ok. vm_compute. exact eq_refl. Qed.

Lemma ex_smash_spares : spares_unvisited ex_smash (inorder ex_T) ex_tm.
Proof. apply smash_spares; [repeat constructor|decide_by_compute]. Qed.
Lemma ex_smash_run : tree_foreach 4 (TreeS 2008 (fun a b => mret (a - b)) 4) ex_smash ex_tm =
  each ex_smash [1000; 2000; 3000; 4000] ex_tm.
Proof.
  apply (tree_foreach_any _ ex_T); [apply ex_T_at|done|simpl; lia|apply ex_smash_spares].
Qed.
Definition ex_smash_tape : option (list Z) :=
  match each ex_smash [1000; 2000; 3000; 4000] ex_tm with Ok _ m => match m !! ex_t with Some (Tape l) => Some l | _ => None end | _ => None end.
Lemma ex_smash_calls : ex_smash_tape = Some [1000; 2000; 3000; 4000].
Proof. vm_compute. reflexivity. Qed.

(** ** Rebalancing a node whose right subtree is higher by two *)
Definition ex_heavy : tree :=
  Node 1008 1000 0 Leaf (Node 3008 3000 2 (Node 2008 2000 1 Leaf Leaf) (Node 4008 4000 1 Leaf Leaf)).
Definition ex_hm : mem := list_to_map (
  ex_tnode 1008 3008 0 1000 0 ++ ex_tnode 3008 4008 2008 3000 2 ++ ex_tnode 2008 0 0 2000 1 ++ ex_tnode 4008 0 0 4000 1).
Lemma ex_heavy_ok : tree_at ex_hm ex_heavy ∧ NoDup (tree_cells ex_heavy) ∧
  avl (Node 3008 3000 2 (Node 2008 2000 1 Leaf Leaf) (Node 4008 4000 1 Leaf Leaf)).
Proof.
  split; [|split; [decide_by_compute|]].
  - apply tree_atb_ok. vm_compute. exact eq_refl.
  - simpl. split; [|split; [|split; [lia|by left]]]; (split; [done|]; split; [done|]; split; [lia|by left]).
Qed.
