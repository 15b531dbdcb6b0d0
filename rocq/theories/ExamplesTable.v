(** * Concrete memories and clients of the hashtables *)
From Verif Require Export ExamplesCall HashLinBurst HashDynAmort TableSwap.
Global Open Scope Z_scope.

Lemma ex_table_start : table_start ex_om ex_K ex_t ex_live ex_m.
Proof.
  split; [apply ex_client_ok|split; [done|split]].
  - decide_by_compute.
  - intros a Ha. exists U. split; [|by left]. pose proof ex_cells_m as HF. rewrite Forall_forall in HF. auto.
  - eexists. split; [apply lookup_insert|done].
  - apply (ex_separate_m [HCTL; ex_t]). vm_compute (_ ++ _). repeat constructor.
Qed.

(** A function that accepts everything. *)
Definition ex_kany (a b : Z) : M Z := mret 0.
Definition ex_any (a b : Z) : Z := 0.
Lemma ex_kany_reads K a b : reads K ex_kany ex_any a b.
Proof. done. Qed.

Definition ex_table_ops : list top :=
  [TInit 0; TInsert 1008 1000 5; TInsert 2008 2000 5; TInsert 3008 3000 (2 ^ 63 + 5); TInsert 4008 4000 6;
   TSearch (ex_kfind 4000) (ex_find 4000) 3 5; TSearch ex_kany ex_any 9 5; TSearch ex_kany ex_any 9 7; TBucket 5; TCount; TForeach; TForeachArg 9;
   TRemove ex_kany ex_any 9 5; TRemove (ex_kfind 4000) (ex_find 4000) 1 6; TRemoveExisting 4008; TCount; TForeachFree; TDone].
Definition ex_table_client : prog top tout := prog_of_list ex_table_ops.

Lemma ex_table_allowed : allowed (tpre ex_om ex_K) tpost (tstate0 ex_om ex_live) ex_table_client.
Proof.
  unfold ex_table_client, ex_table_ops. cbn [prog_of_list allowed]. unfold tstate0.
  assert (Hdom : dom ex_om = {[1008; 2008; 3008; 4008]}) by (unfold ex_om; cbn; set_solver).
  rewrite Hdom. clear Hdom.
  split; [done|]. intros ? ? [_ ->]. cbn [ts_free ts_tab ts_live].
  do 4 (split; [split; [set_solver|split; [eexists; reflexivity|split; lia]]|];
    intros ? ? (es & Ht & _ & ->); cbn [ts_tab] in Ht; injection Ht as <-; cbn [ts_free ts_tab ts_live app]).
  assert (Hkey : ∀ k d, d ∈ [1000; 2000; 3000; 4000] → reads ex_K (ex_kfind 4000) (ex_find 4000) k d).
  { intros k d Hd. apply ex_kfind_reads. assert (HF : Forall (λ d, ex_haskey 4000 d = true) [1000; 2000; 3000; 4000]) by repeat constructor.
    rewrite Forall_forall in HF. auto. }
  do 3 (split; [split; [eexists; split; [reflexivity|]; intros e He _; first [apply ex_kany_reads|apply Hkey; revert e He; apply Forall_forall; decide_by_compute]|split; lia]|]; intros ? ? [-> _]; cbn [ts_free ts_tab ts_live]).
  split; [split; [eexists; reflexivity|split; lia]|]. intros ? ? (? & ? & _ & _ & _ & _ & ->).
  split; [eexists; reflexivity|]. intros ? ? (? & _ & _ & ->).
  split; [eexists; reflexivity|]. intros ? ? (? & ? & _ & _ & _ & ->).
  split; [eexists; reflexivity|]. intros ? ? (? & ? & _ & _ & _ & ->).
  (* remove, found *)
  split; [split; [eexists; split; [reflexivity|]; intros e He _; apply ex_kany_reads|split; lia]|].
  intros ? ? [(es1 & e & es2 & Ht & Hacc & Hno & _ & ->)|(es & Ht & Hno & _)].
  2: { exfalso. cbn [ts_tab] in Ht. injection Ht as <-. apply Forall_cons in Hno as [Hno _]. by apply Hno. }
  assert (es1 = [] ∧ e = Ent 1008 1000 5 ∧ es2 = [Ent 2008 2000 5; Ent 3008 3000 (2 ^ 63 + 5); Ent 4008 4000 6]) as (-> & -> & ->).
  { cbn [ts_tab] in Ht. injection Ht as Ht. destruct es1 as [|e1 es1]; [by injection Ht as -> ->|].
    exfalso. injection Ht as <- Ht. apply Forall_cons in Hno as [Hno _]. by apply Hno. }
  clear Ht Hacc Hno. cbn [ts_free ts_tab ts_live app].
  (* remove, not found *)
  split; [split; [eexists; split; [reflexivity|]; intros e He _; apply Hkey; revert e He; apply Forall_forall; decide_by_compute|split; lia]|].
  intros ? ? [(es1 & e & es2 & Ht & [Hh Hd] & Hno & _ & ->)|(es & Ht & Hno & _ & ->)].
  { exfalso. cbn [ts_tab] in Ht. injection Ht as Ht.
    assert (Hin : e ∈ [Ent 2008 2000 5; Ent 3008 3000 (2 ^ 63 + 5); Ent 4008 4000 6]) by (rewrite Ht; apply elem_of_app; right; left).
    repeat (apply elem_of_cons in Hin as [->|Hin]; [by vm_compute in Hd|]). by apply elem_of_nil in Hin. }
  clear es Ht Hno.
  split. { eexists. split; [reflexivity|]. simpl. set_solver. }
  intros ? ? (es1 & d & h & es2 & Ht & _ & ->). cbn [ts_tab] in Ht. injection Ht as Ht.
  assert (es1 = [Ent 2008 2000 5; Ent 3008 3000 (2 ^ 63 + 5)] ∧ es2 = []) as (-> & ->).
  { destruct es1 as [|? [|? [|? es1]]]; simpl in Ht; injection Ht; intros; simplify_eq; try done. by destruct es1. }
  clear Ht. cbn [ts_free ts_tab ts_live app].
  split; [eexists; reflexivity|]. intros ? ? (? & _ & _ & ->).
  split.
  { eexists. split; [reflexivity|]. cbn [ts_live]. repeat constructor; exists 6%nat; repeat split; vm_compute; done. }
  intros ? ? (es & es' & _ & _ & _ & ->).
  split; [done|]. done.
Qed.

Definition ex_table_answers (T : table) : list tout :=
  match run (tstep T 4 ex_t) None ex_table_client ex_m with Ok r _ => r.2.*2 | _ => [] end.
(** The hash 2^63 + 5 falls in the bucket of 5 but is never compared. *)
Definition ex_table_expected : list tout :=
  [TONone; TONone; TONone; TONone; TONone;
   TOFound 2000 [3; 1000; 3; 2000]; TOFound 1000 [9; 1000]; TOFound 0 [];
   TONodes [(1008, 1000); (2008, 2000); (3008, 3000)]; TOWord 4; TOData [1000; 2000; 3000; 4000];
   TOData [9; 1000; 9; 2000; 9; 3000; 9; 4000];
   TOFound 1000 [9; 1000]; TOFound 0 [1; 4000]; TOWord 4000; TOWord 2; TOData [2000; 3000]; TONone].
Lemma ex_hashtable_run : ex_table_answers hashtable_table = ex_table_expected.
Proof. vm_compute. reflexivity. Qed.
Lemma ex_hashdyn_run : ex_table_answers hashdyn_table = ex_table_expected.
Proof. vm_compute. reflexivity. Qed.
Lemma ex_hashlin_run : ex_table_answers hashlin_table = ex_table_expected.
Proof. vm_compute. reflexivity. Qed.

(** ** A memory with 65 nodes, enough for the tables to grow and shrink *)
Definition big_nodes : list Z := (fun i : nat => 65536 + 64 * Z.of_nat i) <$> seq 0 65.
Definition big_objs : list (Z * (Z * nat)) := (fun p => (p, (p, 4%nat))) <$> big_nodes.
Definition big_om : objmap := list_to_map big_objs.
Definition big_t : Z := 8.
Definition big_m : mem :=
  <[HCTL := Ctl (HeapCtl ∅ (fun n => 1048576 + 65536 * Z.of_nat n) 0)]> (<[big_t := Tape []]> (
  list_to_map ((fun a => (a, U)) <$> (po ← big_objs; obj_cells po.2)))).

Lemma big_start : table_start big_om ∅ big_t ∅ big_m.
Proof.
  assert (Hnd : NoDup big_objs.*1) by decide_by_compute.
  assert (Hp : objs_cells big_om ≡ₚ (po ← big_objs; obj_cells po.2)).
  { unfold objs_cells, big_om. rewrite map_to_list_to_map; [done|done]. }
  split; [split; [|split]|split; [done|split]].
  - intros p o Ho. unfold big_om in Ho. apply elem_of_list_to_map_2 in Ho.
    apply elem_of_list_fmap in Ho as (q & [= -> ->] & Hq). apply elem_of_list_fmap in Hq as (i & -> & Hi).
    apply elem_of_seq in Hi. split; [lia|]. split.
    { replace (65536 + 64 * Z.of_nat i) with ((8192 + 8 * Z.of_nat i) * 8) by lia. apply Z.mod_mul. lia. }
    split; [lia|]. done.
  - rewrite Hp. decide_by_compute.
  - intros a. rewrite Hp. intros Ha. exists U. split; [|by left].
    assert (HF : Forall (λ a, big_m !! a = Some U) (po ← big_objs; obj_cells po.2)).
    { vm_compute (po ← big_objs; obj_cells po.2). repeat constructor. }
    rewrite Forall_forall in HF. auto.
  - eexists. split; [apply lookup_insert|done].
  - split; [apply map_empty_subseteq|done].
Qed.

(** 64 insertions, removals until 9 elements remain, insertion of 56 again. *)
Definition big_client : prog top tout := burst_client (take 9 big_nodes) (take 55 (drop 9 big_nodes)) 69632.
Lemma big_allowed : allowed (tpre big_om ∅) tpost (tstate0 big_om ∅) big_client.
Proof.
  apply burst_allowed; [decide_by_compute|]. intros q Hq. unfold big_om. rewrite dom_list_to_map.
  assert (HF : Forall (λ q, q ∈ (list_to_set big_objs.*1 : gset Z)) (69632 :: take 9 big_nodes ++ take 55 (drop 9 big_nodes))) by decide_by_compute.
  rewrite Forall_forall in HF. auto.
Qed.

Definition big_run : hl_trace :=
  match run_all (tstep hashlin_table 65 big_t) None big_client big_m with Ok l _ => l | _ => [] end.

(** Summary of a step: is it an insertion, number of elements, of valid buckets, state. *)
Definition hl_summary (x : top * tout * option hashlin) : option (bool * Z * Z * Z) :=
  match x with
  | (TInsert _ _ _, _, Some st) => Some (true, hl_count st, hl_valid_buckets st, hl_state st)
  | (_, _, Some st) => Some (false, hl_count st, hl_valid_buckets st, hl_state st)
  | _ => None
  end.

Lemma big_hashlin :
  length big_run = 176%nat ∧ total_work None big_run = 176 ∧ updates big_run = 175 ∧
  (big_run !! 174%nat ≫= hl_summary) = Some (true, 64, 72, STATE_SHRINK) ∧
  (big_run !! 175%nat ≫= hl_summary) = Some (true, 65, 128, STATE_STABLE).
Proof. vm_compute. done. Qed.

Lemma big_run_ok : ∃ m', run_all (tstep hashlin_table 65 big_t) None big_client big_m = Ok big_run m'.
Proof.
  destruct big_hashlin as [Hlen _]. unfold big_run in *.
  destruct (run_all (tstep hashlin_table 65 big_t) None big_client big_m); [|by simpl in Hlen..]. by eexists.
Qed.

Lemma big_size : size big_om = 65%nat.
Proof. vm_compute. done. Qed.

Lemma summary_insert (l : hl_trace) n c v s : (l !! n ≫= hl_summary) = Some (true, c, v, s) →
  ∃ l0 p d h a st l1, l = l0 ++ (TInsert p d h, a, Some st) :: l1 ∧ hl_count st = c ∧ hl_low_max st + hl_split st = v.
Proof.
  intros Hs. destruct (l !! n) as [[[o a] cs]|] eqn:E; [|done]. simpl in Hs.
  destruct o; try (by destruct cs). destruct cs as [st|]; [|done].
  exists (take n l), p, d, h, a, st, (drop (S n) l).
  split; [by rewrite take_drop_middle|]. unfold hl_valid_buckets in Hs. by injection Hs as Hc Hv _.
Qed.

(** An insertion that leaves fewer valid buckets than twice the elements. *)
Lemma hashlin_load_witness : ∃ om K t live m fuel c l m',
  table_start om K t live m ∧ (size om ≤ fuel)%nat ∧ allowed (tpre om K) tpost (tstate0 om live) c ∧
  run_all (tstep hashlin_table fuel t) None c m = Ok l m' ∧
  ∃ l0 p d h a st l1, l = l0 ++ (TInsert p d h, a, Some st) :: l1 ∧ hl_low_max st + hl_split st < 2 * hl_count st.
Proof.
  destruct big_run_ok as [m' Hr]. exists big_om, ∅, big_t, ∅, big_m, 65%nat, big_client, big_run, m'.
  split; [exact big_start|]. split; [by rewrite big_size|]. split; [exact big_allowed|]. split; [exact Hr|].
  destruct big_hashlin as (_ & _ & _ & Hs & _).
  destruct (summary_insert _ _ _ _ _ Hs) as (l0 & p & d & h & a & st & l1 & Heq & Hc & Hv).
  exists l0, p, d, h, a, st, l1. split; [exact Heq|]. lia.
Qed.

Lemma big_size_65 : 64 * 2 ^ 0 < Z.of_nat (size big_om).
Proof. rewrite big_size. lia. Qed.

Definition init_17 : Z := match hashtable_init 17 big_m with Ok st _ => ht_bucket_max st | _ => 0 end.
Lemma ex_init_17' : init_17 = 32.
Proof. vm_compute. done. Qed.
Lemma ex_init_17 : match hashtable_init 17 big_m with Ok st _ => ht_bucket_max st = 32 | _ => False end.
Proof. pose proof ex_init_17' as H. unfold init_17 in H. by destruct (hashtable_init 17 big_m). Qed.

(** Sizes that the table goes through. *)
Fixpoint compress (l : list Z) : list Z :=
  match l with
  | x :: (y :: _) as l' => if decide (x = y) then compress l' else x :: compress l'
  | _ => l
  end.
Definition big_sizes (T : table) (sz : tb_st T → Z) : list Z :=
  match run_all (tstep T 65 big_t) None big_client big_m with
  | Ok l _ => compress ((λ x, match x.2 with Some st => sz st | None => 0 end) <$> l)
  | _ => []
  end.
Definition big_hashdyn_sizes : list Z := [16; 32; 64; 128; 256; 128; 64; 128; 256].
Lemma ex_hashdyn_sizes : big_sizes hashdyn_table hd_bucket_max = big_hashdyn_sizes.
Proof. vm_compute. done. Qed.

(** ** A callback that destroys the node it is called with *)
Lemma smash_spares_table (int : gmap Z region) (xs : list (Z * Z)) m :
  Forall (λ x, x.1 = x.2 + 8) xs → NoDup (ex_t :: blocks_cells int ++ (xs.*1 ≫= node_cells 4)) →
  spares_table ex_smash int xs m.
Proof.
  intros Hf Hn dn x more m1 m2 Heq Hs Hb Hc. apply NoDup_cons in Hn as [Ht Hn].
  apply NoDup_app in Hn as (Hnb & Hdis & Hn). rewrite not_elem_of_app in Ht. destruct Ht as [Htb Htn].
  split.
  - eapply smash_spares; [done| |done..]. apply NoDup_cons. done.
  - intros a Ha. rewrite (smash_other _ _ _ a Hc); [by apply Hb|by intros ->|].
    intros Hx. apply (Hdis a Ha). apply elem_of_list_bind. exists x.1.
    assert (Hin : x ∈ xs) by (rewrite Heq; set_solver). rewrite Forall_forall in Hf. rewrite (Hf x Hin).
    split; [done|]. apply elem_of_list_fmap. exists x. by rewrite (Hf x Hin).
Qed.
Lemma ex_smash_table : spares_table ex_smash {[ 65536 := RWords 16 ]} ex_xs3 ex_m3.
Proof. apply smash_spares_table; [repeat constructor|decide_by_compute]. Qed.

(** The bytes that the tables report after a client has run. *)
Definition big_memory (T : table) : list Z :=
  match run_all (tstep T 65 big_t) None big_client big_m with
  | Ok l _ => (λ x, match x.2 with Some st => tb_memory_usage T st | None => 0 end) <$> l
  | _ => []
  end.
Lemma ex_memory : last (big_memory hashtable_table) = Some (16 * 8 + 65 * 32) ∧
  last (big_memory hashdyn_table) = Some (256 * 8 + 65 * 32) ∧ last (big_memory hashlin_table) = Some (128 * 8 + 65 * 32).
Proof. vm_compute. done. Qed.

(** ** The three tables with the same client *)
Lemma uses_only_list {op out : Type} (P : op → Prop) (l : list op) :
  Forall P l → uses_only (out := out) P (prog_of_list l).
Proof. induction l; [done|]. intros [H1 H2]%Forall_cons. split; [done|]. intros _. auto. Qed.
Definition swap_ops : list top :=
  [TInit 0; TInsert 1008 1000 5; TInsert 2008 2000 5; TInsert 3008 3000 (2 ^ 63 + 5); TInsert 4008 4000 6;
   TSearch (ex_kfind 4000) (ex_find 4000) 3 5; TSearch ex_kany ex_any 9 7; TCount;
   TRemove ex_kany ex_any 9 5; TSearch ex_kany ex_any 9 5; TRemoveExisting 4008; TCount].
Lemma swap_uses_only : uses_only fixed_answer (prog_of_list (out := tout) swap_ops).
Proof. apply uses_only_list. repeat constructor. Qed.
Lemma swap_allowed : allowed (tpre ex_om ex_K) tpost (tstate0 ex_om ex_live) (prog_of_list swap_ops).
Proof.
  unfold swap_ops. cbn [prog_of_list allowed]. unfold tstate0.
  assert (Hdom : dom ex_om = {[1008; 2008; 3008; 4008]}) by (unfold ex_om; cbn; set_solver).
  rewrite Hdom. clear Hdom.
  split; [done|]. intros ? ? [_ ->]. cbn [ts_free ts_tab ts_live].
  do 4 (split; [split; [set_solver|split; [eexists; reflexivity|split; lia]]|];
    intros ? ? (es & Ht & _ & ->); cbn [ts_tab] in Ht; injection Ht as <-; cbn [ts_free ts_tab ts_live app]).
  assert (Hkey : ∀ k d, d ∈ [1000; 2000; 3000; 4000] → reads ex_K (ex_kfind 4000) (ex_find 4000) k d).
  { intros k d Hd. apply ex_kfind_reads. assert (HF : Forall (λ d, ex_haskey 4000 d = true) [1000; 2000; 3000; 4000]) by repeat constructor.
    rewrite Forall_forall in HF. auto. }
  do 2 (split; [split; [eexists; split; [reflexivity|]; intros e He _; first [apply ex_kany_reads|apply Hkey; revert e He; apply Forall_forall; decide_by_compute]|split; lia]|]; intros ? ? [-> _]; cbn [ts_free ts_tab ts_live]).
  split; [eexists; reflexivity|]. intros ? ? (? & _ & _ & ->).
  split; [split; [eexists; split; [reflexivity|]; intros e He _; apply ex_kany_reads|split; lia]|].
  intros ? ? [(es1 & e & es2 & Ht & Hacc & Hno & _ & ->)|(es & Ht & Hno & _)].
  2: { exfalso. cbn [ts_tab] in Ht. injection Ht as <-. apply Forall_cons in Hno as [Hno _]. by apply Hno. }
  assert (es1 = [] ∧ e = Ent 1008 1000 5 ∧ es2 = [Ent 2008 2000 5; Ent 3008 3000 (2 ^ 63 + 5); Ent 4008 4000 6]) as (-> & -> & ->).
  { cbn [ts_tab] in Ht. injection Ht as Ht. destruct es1 as [|e1 es1]; [by injection Ht as -> ->|].
    exfalso. injection Ht as <- Ht. apply Forall_cons in Hno as [Hno _]. by apply Hno. }
  clear Ht Hacc Hno. cbn [ts_free ts_tab ts_live app].
  split; [split; [eexists; split; [reflexivity|]; intros e He _; apply ex_kany_reads|split; lia]|]. intros ? ? [-> _]. cbn [ts_free ts_tab ts_live].
  split. { eexists. split; [reflexivity|]. simpl. set_solver. }
  intros ? ? (es1 & d & h & es2 & Ht & _ & ->). clear Ht.
  split; [eexists; reflexivity|]. intros ? ? (? & _ & _ & ->). done.
Qed.
Definition swap_answers (T : table) : list tout :=
  match run (tstep T 4 ex_t) None (prog_of_list swap_ops) ex_m with Ok r _ => r.2.*2 | _ => [] end.
Definition swap_expected : list tout :=
  [TONone; TONone; TONone; TONone; TONone; TOFound 2000 [3; 1000; 3; 2000]; TOFound 0 []; TOWord 4;
   TOFound 1000 [9; 1000]; TOFound 2000 [9; 2000]; TOWord 4000; TOWord 2].
Lemma swap_run : swap_answers hashtable_table = swap_expected ∧ swap_answers hashdyn_table = swap_expected ∧
  swap_answers hashlin_table = swap_expected.
Proof. vm_compute. done. Qed.

(** ** The work of the dynamic table *)
Definition big_hd_work : Z * Z :=
  match run_all (tstep hashdyn_table 65 big_t) None big_client big_m with
  | Ok l _ => (hd_total_work None l, hd_updates l)
  | _ => (0, 0)
  end.
Lemma ex_hd_work : big_hd_work = (840, 175).
Proof. vm_compute. done. Qed.
