(** * Concrete memories and clients used to show that premises can be met. *)
From Verif Require Export ListSpec.
Global Open Scope Z_scope.

(** Four heap objects of six words, each with a node one word after its base. *)
Definition ex_objs : list (Z * (Z * nat)) :=
  [(1008, (1000, 6%nat)); (2008, (2000, 6%nat)); (3008, (3000, 6%nat)); (4008, (4000, 6%nat))].
Definition ex_om : objmap := list_to_map ex_objs.
Definition ex_live : gmap Z region := list_to_map ((fun x => (x.2.1, RWords x.2.2)) <$> ex_objs).
Definition ex_t : Z := 8.
Definition ex_l1 : Z := 16.
Definition ex_l2 : Z := 24.
(** The keys that comparison functions read, in two arrays apart from the objects:
    those of the object at [a] are at [a + 4000] and [a + 4008]. *)
Definition ex_keys : list (Z * cell) :=
  [(5000, W 7); (6000, W 3); (7000, W 7); (8000, W 5);
   (5008, W 10); (6008, W 20); (7008, W 30); (8008, W 40); (6512, W 25)].
Definition ex_K : mem := list_to_map ex_keys.
Definition ex_m : mem :=
  <[HCTL := Ctl (HeapCtl ex_live (fun n => 8192 + 16384 * Z.of_nat n) 0)]> (
  <[ex_t := Tape []]> (<[ex_l1 := U]> (<[ex_l2 := U]> (
  list_to_map (ex_keys ++ ((fun a => (a, U)) <$> (po ← ex_objs; obj_cells po.2))))))).

Ltac decide_by_compute := apply (bool_decide_unpack _); vm_compute; exact I.

Lemma ex_client_ok others : NoDup (others ++ (po ← ex_objs; obj_cells po.2)) →
  ∀ m, (∀ a, a ∈ (po ← ex_objs; obj_cells po.2) → ∃ c, m !! a = Some c ∧ wordcell c) →
  client_ok 4 ex_om others m.
Proof.
  intros Hnd m Hm.
  assert (Hp : objs_cells ex_om ≡ₚ (po ← ex_objs; obj_cells po.2)).
  { unfold objs_cells, ex_om. rewrite map_to_list_to_map; [decide_by_compute|done]. }
  split; [|split].
  - intros p o Ho. unfold ex_om in Ho. apply elem_of_list_to_map_2 in Ho. unfold ex_objs in Ho.
    repeat (apply elem_of_cons in Ho as [[= -> ->]|Ho]; [split; [lia|split; [done|split; [lia|]]];
      intros a; vm_compute node_cells; vm_compute obj_cells; set_solver|]).
    by apply elem_of_nil in Ho.
  - by rewrite Hp.
  - intros a. rewrite Hp. apply Hm.
Qed.


Lemma ex_cells_m : Forall (λ a, ex_m !! a = Some U) (po ← ex_objs; obj_cells po.2).
Proof. vm_compute (po ← ex_objs; obj_cells po.2). repeat constructor. Qed.

(** Comparison of the keys of two objects, and of a key with that of an object. *)
Definition ex_kcmp (off a b : Z) : M Z := x ← load (a + off); y ← load (b + off); mret (x - y).
Definition ex_kfind (off k d : Z) : M Z := x ← load (d + off); mret (k - x).
Definition ex_key (off a : Z) : Z := match ex_K !! (a + off) with Some (W z) => z | _ => 0 end.
Definition ex_haskey (off a : Z) : bool := match ex_K !! (a + off) with Some (W _) => true | _ => false end.
Definition ex_cmp (off a b : Z) : Z := ex_key off a - ex_key off b.
Definition ex_find (off k d : Z) : Z := k - ex_key off d.
Lemma ex_load off a m : ex_haskey off a = true → ex_K ⊆ m → load (a + off) m = Ok (ex_key off a) m.
Proof.
  unfold ex_haskey, ex_key, load. generalize ex_K. intros K H Hm. destruct (K !! (a + off)) as [c|] eqn:E; [|done].
  rewrite (lookup_weaken _ _ _ _ E Hm). by destruct c.
Qed.
Lemma ex_kcmp_reads off a b : ex_haskey off a = true → ex_haskey off b = true → reads ex_K (ex_kcmp off) (ex_cmp off) a b.
Proof. intros Ha Hb m Hm. unfold ex_kcmp, mbind, M_bind. rewrite !ex_load //. Qed.
Lemma ex_kcmp_reads_all off xs : Forall (λ a, ex_haskey off a = true) xs →
  ∀ a b, a ∈ xs → b ∈ xs → reads ex_K (ex_kcmp off) (ex_cmp off) a b.
Proof. intros HF a b Ha Hb. rewrite Forall_forall in HF. apply ex_kcmp_reads; auto. Qed.
Lemma ex_kfind_reads off k d : ex_haskey off d = true → reads ex_K (ex_kfind off) (ex_find off) k d.
Proof. intros Hd m Hm. unfold ex_kfind, mbind, M_bind. rewrite !ex_load //. Qed.
Lemma ex_cmp_order off : total_preorder (ex_cmp off).
Proof. split; unfold ex_cmp; intros; lia. Qed.
Lemma ex_separate cells m : Forall (λ x, m !! x.1 = Some x.2) ex_keys → NoDup ex_keys.*1 →
  Forall (λ a, ex_K !! a = None) cells → separate ex_K cells m.
Proof.
  intros Hm Hn Hc. rewrite !Forall_forall in Hm, Hc. split; [|auto]. apply map_subseteq_spec. intros a c Ha.
  apply elem_of_list_to_map_2 in Ha. by apply (Hm (a, c)).
Qed.
Lemma ex_separate_m others : Forall (λ a, ex_K !! a = None) (others ++ (po ← ex_objs; obj_cells po.2)) →
  separate ex_K (others ++ objs_cells ex_om) ex_m.
Proof.
  intros H. apply ex_separate; [repeat constructor|decide_by_compute|].
  unfold objs_cells, ex_om. rewrite map_to_list_to_map; [decide_by_compute|exact H].
Qed.

Lemma ex_list_start : list_start ex_om ex_K [ex_l1; ex_l2] ex_t ex_live ex_m.
Proof.
  split; [apply ex_client_ok|split; [done|split; [|split]]].
  - decide_by_compute.
  - intros a Ha. exists U. split; [|by left]. pose proof ex_cells_m as HF. rewrite Forall_forall in HF. auto.
  - eexists. split; [reflexivity|done].
  - apply (ex_separate_m [HCTL; ex_t; ex_l1; ex_l2]). vm_compute (_ ++ _). repeat constructor.
  - intros l Hl. exists U. split; [|by left]. set_unfold in Hl. destruct Hl as [->|[->|[]]]; reflexivity.
Qed.

Definition ex_list_ops : list lop :=
  [LInit ex_l1; LInit ex_l2; LInsertTail ex_l1 1008 1000; LInsertHead ex_l1 2008 2000;
   LInsertTail ex_l2 3008 3000; LCount ex_l1; LConcat ex_l1 ex_l2; LTail ex_l1;
   LSort ex_l1 (fun _ => ex_kcmp 4000) (fun _ => ex_cmp 4000); LWalk ex_l1; LRemove ex_l1 2008; LForeachFree ex_l1].
Definition ex_list_client : prog lop lout := prog_of_list ex_list_ops.

Lemma ex_list_allowed : allowed (lpre ex_om ex_K) lpost (lstate0 ex_om [ex_l1; ex_l2] ex_live) ex_list_client.
Proof.
  unfold ex_list_client, ex_list_ops. cbn [prog_of_list allowed].
  unfold lstate0.
  assert (Hdom : dom ex_om = {[1008; 2008; 3008; 4008]}) by (unfold ex_om; cbn; set_solver).
  rewrite Hdom. clear Hdom.
  split; [vm_compute; eauto|]. intros ? ? (_ & ox & Hox & ->). vm_compute in Hox; injection Hox as <-.
  split; [vm_compute; eauto|]. intros ? ? (_ & ox & Hox & ->). vm_compute in Hox; injection Hox as <-.
  cbn [ls_free ls_lists ls_live list_to_map fmap list_fmap foldr fst snd].
  split; [split; [set_solver|]; eexists; vm_compute; reflexivity|].
  intros ? ? (xs & Hxs & _ & ->). vm_compute in Hxs; injection Hxs as <-.
  split; [split; [unfold take, set_list; simpl; set_solver|]; eexists; vm_compute; reflexivity|].
  intros ? ? (xs & Hxs & _ & ->). vm_compute in Hxs; injection Hxs as <-.
  split; [split; [unfold take, set_list; simpl; set_solver|]; eexists; vm_compute; reflexivity|].
  intros ? ? (xs & Hxs & _ & ->). vm_compute in Hxs; injection Hxs as <-.
  split; [eexists; vm_compute; reflexivity|]. intros ? ? (xs & Hxs & _ & ->). clear xs Hxs.
  split; [split; [done|]; split; eexists; vm_compute; reflexivity|].
  intros ? ? (xs & ys & Hxs & Hys & _ & ->). vm_compute in Hxs; injection Hxs as <-. vm_compute in Hys; injection Hys as <-.
  split; [eexists; vm_compute; reflexivity|]. intros ? ? (xs & Hxs & _ & ->). clear xs Hxs.
  split.
  { eexists; split; [vm_compute; reflexivity|]. intros log. apply ex_kcmp_reads_all. repeat constructor. }
  intros ? ? (xs & ys & calls & Hxs & _ & -> & Hp & _). vm_compute in Hxs; injection Hxs as <-.
  match goal with |- context [set_list _ (Some ys) ?s0] => set (s := s0) in * end.
  assert (Hs : ls_live s = ex_live) by done. clearbody s.
  split; [eexists; apply lookup_insert|].
  intros ? ? (xs & Hxs & _ & ->). clear xs Hxs.
  split.
  { exists ys. split; [apply lookup_insert|]. rewrite Hp. simpl. set_solver. }
  intros ? ? (xs & d & zs & Hxs & _ & ->).
  unfold has_list in Hxs. simpl in Hxs. rewrite lookup_insert in Hxs. injection Hxs as ->.
  split; [|done].
  eexists; split; [apply lookup_insert|]. simpl. rewrite Hs.
  assert (HF : Forall (λ pd, freeable ex_live ex_om pd.1 pd.2) (xs ++ (2008, d) :: zs)).
  { rewrite Hp. repeat constructor; exists 6%nat; repeat split; vm_compute; done. }
  apply Forall_app in HF as [HF1 HF2]. apply Forall_cons in HF2 as [_ HF2]. by apply Forall_app.
Qed.

Definition ex_list_answers : list lout :=
  match run (lstep 4 ex_t) tt ex_list_client ex_m with Ok r _ => r.2.*2 | _ => [] end.
Definition ex_list_expected : list lout :=
  [ONone; ONone; ONone; ONone; ONone; OWord 2; ONone; OWord 3008;
   OData [2000; 1000; 1000; 3000];
   ONodes [(2008, 2000); (1008, 1000); (3008, 3000)]; OWord 2000; OData [1000; 3000]].
Lemma ex_list_run : ex_list_answers = ex_list_expected.
Proof. vm_compute. reflexivity. Qed.

(** A memory with two lists built. *)
Definition ex_node (p nx pv d : Z) : list (Z * cell) :=
  [(f_next p, W nx); (f_prev p, W pv); (f_data p, W d); (f_index p, U)].
Definition ex_m2 : mem := list_to_map (
  [(ex_t, Tape []); (ex_l1, W 1008); (ex_l2, W 4008)] ++ ex_keys ++
  ex_node 1008 2008 3008 1000 ++ ex_node 2008 3008 1008 2000 ++ ex_node 3008 0 2008 3000 ++ ex_node 4008 0 4008 4000).
Definition ex_xs2 : list (Z * Z) := [(1008, 1000); (2008, 2000); (3008, 3000)].
Lemma ex_rep :
  list_rep ex_m2 ex_l1 ex_xs2 /\ ex_m2 !! ex_t = Some (Tape []) /\
  separate ex_K (ex_t :: ex_l1 :: (ex_xs2.*1 ≫= node_cells 4)) ex_m2 /\
  (forall a b, a ∈ ex_xs2.*2 -> b ∈ ex_xs2.*2 -> reads ex_K (ex_kcmp 4000) (ex_cmp 4000) a b) /\
  total_preorder (ex_cmp 4000).
Proof.
  split; [|split; [reflexivity|split; [|split]]].
  - unfold ex_xs2. split; [reflexivity|]. split; [|decide_by_compute].
    repeat (split; [lia || done|]). 
    repeat split; first [lia | vm_compute; reflexivity | eexists; split; [vm_compute; reflexivity|by left]].
  - apply ex_separate; [repeat constructor|decide_by_compute|vm_compute (_ :: _); repeat constructor].
  - apply ex_kcmp_reads_all. repeat constructor.
  - apply ex_cmp_order.
Qed.
Lemma ex_rep2 :
  list_rep ex_m2 ex_l2 [(4008, 4000)] /\
  NoDup ((ex_l1 :: ([1008; 2008; 3008] ≫= node_cells 4)) ++ ex_l2 :: ([4008] ≫= node_cells 4)).
Proof.
  split; [|decide_by_compute]. split; [reflexivity|]. split; [|decide_by_compute].
  repeat split; first [lia | vm_compute; reflexivity | eexists; split; [vm_compute; reflexivity|by left]].
Qed.
