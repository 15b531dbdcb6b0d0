(** * Searches, counts and visits write nothing. *)
From Verif Require Export List HashTbl HashDyn HashLin Trie InpTrie Tree Array Alloc Hash.
Global Open Scope Z_scope.

(** [c] is made of loads, of computations without effect and of the ends
    "undefined behaviour" and "out of fuel", put in sequence.  There is no store
    in it, not even one that puts back the value that was there, and no call of
    the heap. *)
Inductive only_reads : forall {A : Type}, M A -> Prop :=
  | or_ret A (v : A) : only_reads (mret v)
  | or_ub A : only_reads (@ub A)
  | or_fuel A : only_reads (@fuel_out A)
  | or_load a : only_reads (load a)
  | or_loadb a : only_reads (loadb a)
  | or_bind A B (c : M A) (k : A -> M B) : only_reads c -> (forall v, only_reads (k v)) -> only_reads (c ≫= k).

(** Then [c] leaves the memory, the heap included, as it found it. *)
Lemma only_reads_same A (c : M A) : only_reads c →
  ∀ m, match c m with Ok _ m' => m' = m | _ => True end.
Proof.
  induction 1 as [A v|A|A|a|a|A B c k _ IHc _ IHk]; intros m; try done.
  - rewrite /load. by destruct (m !! a) as [[]|].
  - rewrite /loadb. by destruct (m !! a) as [[]|].
  - specialize (IHc m). rewrite /mbind /M_bind. destruct (c m) as [v m'| | |]; try done. subst m'. apply IHk.
Qed.
Lemma only_reads_kept A (c : M A) : only_reads c → ∀ m v m', c m = Ok v m' → m' = m.
Proof. intros Hc m v m' E. assert (H := only_reads_same _ _ Hc m). by rewrite E in H. Qed.
Lemma or_massert b : only_reads (massert b).
Proof. destruct b; constructor. Qed.

Ltac oreads :=
  repeat match goal with
  | |- only_reads (mret _) => apply or_ret
  | |- only_reads ub => apply or_ub
  | |- only_reads fuel_out => apply or_fuel
  | |- only_reads (load _) => apply or_load
  | |- only_reads (loadb _) => apply or_loadb
  | |- only_reads (massert _) => apply or_massert
  | |- only_reads (_ ≫= _) => apply or_bind; [|intros ?]
  | |- only_reads (if ?b then _ else _) => destruct b
  | |- only_reads (match ?x with _ => _ end) => destruct x
  | |- only_reads (let _ := _ in _) => cbv zeta
  | H : context [only_reads _] |- only_reads _ => apply H
  end.

Lemma or_list_count_loop fuel count i : only_reads (list_count_loop fuel count i).
Proof. revert count i. induction fuel; intros; simpl; oreads. Qed.
Lemma or_foreach_loop fuel node func : (∀ d, only_reads (func d)) → only_reads (list_foreach_loop fuel node func).
Proof. intros Hf. revert node. induction fuel; intros; simpl; oreads. Qed.
Lemma or_bucket_search fuel cmp arg hash i : (∀ a b, only_reads (cmp a b)) → only_reads (bucket_search fuel cmp arg hash i).
Proof. intros Hf. revert i. induction fuel; intros; simpl; oreads. Qed.
Lemma or_buckets_foreach fuel n pos ref func : (∀ p, only_reads (ref p)) → (∀ d, only_reads (func d)) →
  only_reads (buckets_foreach fuel n pos ref func).
Proof. intros Hr Hf. revert pos. induction n; intros; simpl; oreads. by apply or_foreach_loop. Qed.

Ltac ands := repeat match goal with |- _ ∧ _ => apply conj end.

Lemma list_reads fuel l func func_arg arg :
  (∀ d, only_reads (func d)) → (∀ a d, only_reads (func_arg a d)) →
  only_reads (list_head l) ∧ only_reads (list_tail l) ∧ only_reads (list_empty l) ∧
  only_reads (list_count fuel l) ∧ only_reads (list_foreach fuel l func) ∧
  only_reads (list_foreach_arg fuel l func_arg arg).
Proof.
  intros Hf Hg. rewrite /list_tail /list_empty /list_count /list_foreach /list_foreach_arg /list_head. ands; oreads.
  - apply or_list_count_loop.
  - by apply or_foreach_loop.
  - by apply or_foreach_loop.
Qed.

Lemma hashtable_reads fuel t cmp arg hash func func_arg :
  (∀ a b, only_reads (cmp a b)) → (∀ d, only_reads (func d)) → (∀ a d, only_reads (func_arg a d)) →
  only_reads (hashtable_bucket t hash) ∧ only_reads (hashtable_search fuel t cmp arg hash) ∧
  only_reads (hashtable_foreach fuel t func) ∧ only_reads (hashtable_foreach_arg fuel t func_arg arg).
Proof.
  intros Hc Hf Hg. rewrite /hashtable_search /hashtable_bucket /hashtable_foreach /hashtable_foreach_arg. ands; oreads.
  - by apply or_bucket_search.
  - apply or_buckets_foreach; intros; oreads.
  - apply or_buckets_foreach; intros; oreads.
Qed.
Lemma hashdyn_reads fuel t cmp arg hash func func_arg :
  (∀ a b, only_reads (cmp a b)) → (∀ d, only_reads (func d)) → (∀ a d, only_reads (func_arg a d)) →
  only_reads (hashdyn_bucket t hash) ∧ only_reads (hashdyn_search fuel t cmp arg hash) ∧
  only_reads (hashdyn_foreach fuel t func) ∧ only_reads (hashdyn_foreach_arg fuel t func_arg arg).
Proof.
  intros Hc Hf Hg. rewrite /hashdyn_search /hashdyn_bucket /hashdyn_foreach /hashdyn_foreach_arg. ands; oreads.
  - by apply or_bucket_search.
  - apply or_buckets_foreach; intros; oreads.
  - apply or_buckets_foreach; intros; oreads.
Qed.

Lemma or_ilog2 x : only_reads (ilog2 x).
Proof. rewrite /ilog2. oreads. Qed.
Lemma or_hl_get t i : only_reads (hl_get t i).
Proof. rewrite /hl_get. oreads. Qed.
Lemma or_hashlin_pos t pos : only_reads (hashlin_pos t pos).
Proof. rewrite /hashlin_pos. oreads; [apply or_ilog2|apply or_hl_get]. Qed.
Lemma hashlin_reads fuel t cmp arg hash func func_arg :
  (∀ a b, only_reads (cmp a b)) → (∀ d, only_reads (func d)) → (∀ a d, only_reads (func_arg a d)) →
  only_reads (hashlin_bucket t hash) ∧ only_reads (hashlin_search fuel t cmp arg hash) ∧
  only_reads (hashlin_foreach fuel t func) ∧ only_reads (hashlin_foreach_arg fuel t func_arg arg).
Proof.
  intros Hc Hf Hg. rewrite /hashlin_search /hashlin_bucket /hashlin_foreach /hashlin_foreach_arg /hashlin_bucket_ref.
  assert (Hp := or_hashlin_pos). ands; oreads.
  - by apply or_bucket_search.
  - apply or_buckets_foreach; intros; oreads.
  - apply or_buckets_foreach; intros; oreads.
Qed.

Lemma or_trie_bucket_loop fuel shift ptr key : only_reads (trie_bucket_loop fuel shift ptr key).
Proof. revert shift ptr. induction fuel; intros; simpl; rewrite /trie_digit /shr_key; oreads. Qed.
Lemma trie_reads fuel t key : only_reads (trie_bucket fuel t key) ∧ only_reads (trie_search fuel t key).
Proof. assert (H := or_trie_bucket_loop). rewrite /trie_search /trie_bucket /trie_let_ptr /shr_key. ands; oreads. Qed.

Lemma or_inp_bucket_loop fuel shift node key : only_reads (inp_bucket_loop fuel shift node key).
Proof. revert shift node. induction fuel; intros; simpl; rewrite /inp_digit /shr_key; oreads. Qed.
Lemma inp_reads fuel t key : only_reads (inp_bucket_of fuel t key) ∧ only_reads (inp_search fuel t key).
Proof. assert (H := or_inp_bucket_loop). rewrite /inp_search /inp_bucket_of /inp_let_ptr /shr_key. ands; oreads. Qed.

Lemma or_tree_search_node fuel cmp root data : (∀ a b, only_reads (cmp a b)) →
  only_reads (tree_search_node fuel cmp root data).
Proof. intros Hc. revert root. induction fuel; intros; simpl; oreads. Qed.
Lemma or_tree_foreach_node fuel root func : (∀ d, only_reads (func d)) →
  only_reads (tree_foreach_node fuel root func).
Proof. intros Hf. revert root. induction fuel; intros; simpl; oreads. Qed.
Lemma tree_reads fuel t cmp arg data func func_arg :
  (∀ a b, only_reads (tr_cmp t a b)) → (∀ a b, only_reads (cmp a b)) →
  (∀ d, only_reads (func d)) → (∀ a d, only_reads (func_arg a d)) →
  only_reads (tree_search fuel t data) ∧ only_reads (tree_search_compare fuel t cmp arg) ∧
  only_reads (tree_foreach fuel t func) ∧ only_reads (tree_foreach_arg fuel t func_arg arg).
Proof.
  intros Ht Hc Hf Hg. rewrite /tree_search /tree_search_compare /tree_foreach /tree_foreach_arg.
  ands; oreads; first [by apply or_tree_search_node|by apply or_tree_foreach_node].
Qed.

Lemma or_seg_get b i : only_reads (seg_get b i).
Proof. rewrite /seg_get. oreads. Qed.
Lemma array_reads t u b bo pos :
  only_reads (array_get t pos) ∧ only_reads (array_ref t pos) ∧ only_reads (arrayof_ref u pos) ∧
  only_reads (arrayblk_get b pos) ∧ only_reads (arrayblk_ref b pos) ∧ only_reads (arrayblkof_ref bo pos).
Proof.
  assert (H1 := or_ilog2). assert (H2 := or_seg_get).
  rewrite /arrayblk_get /arrayblk_ref /arrayblkof_ref /array_get /array_ref /arrayof_ref. ands; oreads.
Qed.

Lemma or_le_uint32_read x86 ptr : only_reads (le_uint32_read x86 ptr).
Proof. destruct x86; rewrite /le_uint32_read /le_uint32_read_x86 /le_uint32_read_portable; oreads. Qed.
Lemma or_hash_loop x86 fuel abc key len : only_reads (hash_loop x86 fuel abc key len).
Proof.
  assert (H := or_le_uint32_read). revert abc key len. induction fuel; intros [[a b] c] key len; simpl; oreads.
Qed.
Lemma or_hash_switch x86 abc key len : only_reads (hash_switch x86 abc key len).
Proof.
  assert (H := or_le_uint32_read). destruct abc as [[a b] c].
  rewrite /hash_switch /case_12 /case_11 /case_10 /case_9 /case_8 /case_7 /case_6 /case_5 /case_4 /case_3 /case_2 /case_1. oreads.
Qed.
Lemma or_strhash_loop x86 fuel abc key : only_reads (strhash_loop x86 fuel abc key).
Proof.
  assert (H := or_le_uint32_read). revert abc key. induction fuel; intros [[a b] c] key; cbn [strhash_loop]; oreads.
Qed.
Lemma hash_reads x86 fuel init key len :
  only_reads (hash_u32 x86 fuel init key len) ∧ only_reads (hash_u64 x86 fuel init key len) ∧
  only_reads (strhash_u32 x86 fuel init key).
Proof.
  assert (H1 := or_hash_loop). assert (H2 := or_hash_switch). assert (H3 := or_strhash_loop).
  rewrite /hash_u32 /hash_u64 /strhash_u32. ands; oreads.
Qed.

(** ** A case that is not trivial

    A list of two elements, whose objects at 2000 and 3000 start with their
    keys, a callback that reads the key, a comparison that compares keys; and a
    table with one bucket, which is that list. *)
Definition ro_mem : mem := list_to_map [(800, W 1000);
  (1000, W 1032); (1008, W 1032); (1016, W 2000); (1024, W 7);
  (1032, W 0); (1040, W 1000); (1048, W 3000); (1056, W 7);
  (2000, W 41); (3000, W 42)].
Definition ro_visit (d : Z) : M unit := k ← load d; massert (bool_decide (41 <= k)).
Definition ro_cmp (a d : Z) : M Z := k ← load d; mret (a - k).
Lemma ro_visit_reads d : only_reads (ro_visit d).
Proof. rewrite /ro_visit. oreads. Qed.
Lemma ro_cmp_reads a d : only_reads (ro_cmp a d).
Proof. rewrite /ro_cmp. oreads. Qed.
Lemma ro_runs :
  (match list_foreach 10 800 ro_visit ro_mem with Ok _ _ => True | _ => False end) ∧
  (match list_count 10 800 ro_mem with Ok n _ => n = 2 | _ => False end) ∧
  (match hashtable_search 10 (HashTable 800 1 0 2) ro_cmp 42 7 ro_mem with Ok d _ => d = 3000 | _ => False end).
Proof. vm_compute. done. Qed.
