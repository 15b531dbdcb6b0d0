(** * Model of tommytrie.h and tommytrie.c: the trie with inner blocks. *)
From Verif Require Export Alloc List.
Global Open Scope Z_scope.

(** tommytrie.h:142-173 and tommytrie.c:39-49, with sizeof(void* ) = 8:
    TOMMY_TRIE_TREE_MAX 8, TOMMY_TRIE_TREE_BIT 3, TOMMY_TRIE_BUCKET_BIT 5. *)
Definition TRIE_BIT : Z := 32.
Definition TRIE_TREE_MAX : Z := 64 / 8.
Definition TRIE_BLOCK_SIZE : Z := TRIE_TREE_MAX * 8.
Definition TRIE_TREE_BIT : Z := 3.
Definition TRIE_BUCKET_BIT : Z := TRIE_BIT mod TRIE_TREE_BIT + TRIE_TREE_BIT.
Definition TRIE_BUCKET_MAX : Z := 2 ^ TRIE_BUCKET_BIT.
Definition TRIE_TREE_MASK : Z := TRIE_TREE_MAX - 1.
Definition TRIE_BUCKET_SHIFT : Z := TRIE_BIT - TRIE_BUCKET_BIT.
Definition TRIE_LEVEL_MAX : Z := (TRIE_BIT - TRIE_BUCKET_BIT) / TRIE_TREE_BIT.

(** tommytrie.h:185-190 tommy_trie.  [tri_bucket] is the address of the array
    bucket, whose elements are address-taken; the other fields are not.  The
    field alloc, a pointer to the client's allocator, is left out: the functions
    take and return the allocator. *)
Record trie := Trie {
  tri_bucket : Z;
  tri_count : Z;
  tri_node_count : Z }.

(** tommytrie.c:73-75 *)
Definition trie_get_type (ptr : Z) : Z := Z.land ptr 1.
Definition trie_get_tree (ptr : Z) : Z := sub64 ptr 1.
Definition trie_set_tree (ptr : Z) : Z := add64 ptr 1.

(** [key >> shift] on a 64 bit key: shifting by 64 or more is undefined. *)
Definition shr_key (key shift : Z) : M Z :=
  if decide (shift < 64) then mret (shr key shift) else ub.

(** [(key >> shift) & TOMMY_TRIE_TREE_MASK] *)
Definition trie_digit (key shift : Z) : M Z :=
  d ← shr_key key shift;
  mret (Z.land d TRIE_TREE_MASK).

(** The loops [for (i = 0; i < n; ++i) map[i] = 0] of tommytrie.c:81-82 and
    130-131, [a] is the address of map[i]. *)
Fixpoint clear_loop (a : Z) (n : nat) : M unit :=
  match n with
  | O => mret tt
  | S n => store a 0;; clear_loop (a + 8) n
  end.

(** tommytrie.c:77-88 tommy_trie_init, for a trie whose bucket array is at
    [bucket] *)
Definition trie_init (bucket : Z) : M trie :=
  clear_loop bucket (Z.to_nat TRIE_BUCKET_MAX);;
  mret (Trie bucket 0 0).

(** tommytrie.c:123-150, from the label expand of trie_bucket_insert; returns
    the allocator and node_count *)
Fixpoint trie_expand (fuel : nat) (al : allocator) (node_count shift let_ptr node insert key : Z)
    : M (allocator * Z) :=
  r ← allocator_alloc al;
  let tree := r.1 in
  let node_count := add64 node_count 1 in
  store let_ptr (trie_set_tree tree);;
  clear_loop tree (Z.to_nat TRIE_TREE_MAX);;
  index ← load (f_index node);
  i ← trie_digit index shift;
  j ← trie_digit key shift;
  if decide (i <> j) then
    store (tree + 8 * i) node;;
    list_insert_first (tree + 8 * j) insert;;
    mret (r.2, node_count)
  else
    match fuel with
    | O => fuel_out
    | S fuel => trie_expand fuel r.2 node_count (sub32 shift TRIE_TREE_BIT) (tree + 8 * i) node insert key
    end.

(** tommytrie.c:90-151 trie_bucket_insert, from the label recurse *)
Fixpoint trie_bucket_insert (fuel : nat) (al : allocator) (node_count shift let_ptr insert key : Z)
    : M (allocator * Z) :=
  ptr ← load let_ptr;
  if decide (ptr = null) then
    list_insert_first let_ptr insert;;
    mret (al, node_count)
  else if decide (trie_get_type ptr = 1) then
    d ← trie_digit key shift;
    match fuel with
    | O => fuel_out
    | S fuel =>
        trie_bucket_insert fuel al node_count (sub32 shift TRIE_TREE_BIT) (trie_get_tree ptr + 8 * d) insert key
    end
  else
    index ← load (f_index ptr);
    if decide (index = key) then
      list_insert_tail_not_empty ptr insert;;
      mret (al, node_count)
    else trie_expand fuel al node_count shift let_ptr ptr insert key.

(** [assert(key >> TOMMY_TRIE_BUCKET_SHIFT < TOMMY_TRIE_BUCKET_MAX)], and the
    address of the bucket: tommytrie.c:158-163, 261-263, 282-284, 304-306 *)
Definition trie_let_ptr (t : trie) (key : Z) : M Z :=
  i ← shr_key key TRIE_BUCKET_SHIFT;
  massert (bool_decide (i < TRIE_BUCKET_MAX));;
  mret (tri_bucket t + 8 * i).

(** tommytrie.c:153-168 tommy_trie_insert *)
Definition trie_insert (fuel : nat) (t : trie) (al : allocator) (node data key : Z) : M (trie * allocator) :=
  let_ptr ← trie_let_ptr t key;
  store (f_data node) data;;
  store (f_index node) key;;
  r ← trie_bucket_insert fuel al (tri_node_count t) TRIE_BUCKET_SHIFT let_ptr node key;
  mret (Trie (tri_bucket t) (add64 (tri_count t) 1) r.2, r.1).

(** tommytrie.c:226-238, the for loop of trie_bucket_remove_existing: counts the
    children of [tree] from the [i]-th one, [n] are left.  [None]: the loop
    returned from the function. *)
Fixpoint trie_scan (n : nat) (tree i count last : Z) : M (option (Z * Z)) :=
  match n with
  | O => mret (Some (count, last))
  | S n =>
      c ← load (tree + 8 * i);
      if decide (c = null) then trie_scan n tree (i + 1) count last
      else if decide (trie_get_type c <> 0) then mret None
      else
        let count := count + 1 in
        if decide (count > 1) then mret None
        else trie_scan n tree (i + 1) count i
  end.

(** tommytrie.c:215-252, from the label reduce of trie_bucket_remove_existing.
    [path] are the first [level] entries of let_back, last one first; the goto
    at the end and the test of [level] before the label are the same test. *)
Fixpoint trie_reduce (path : list Z) (al : allocator) (node_count : Z) : M (allocator * Z) :=
  match path with
  | [] => mret (al, node_count)
  | let_ptr :: path =>
      ptr ← load let_ptr;
      let tree := trie_get_tree ptr in
      r ← trie_scan (Z.to_nat TRIE_TREE_MAX) tree 0 0 0;
      match r with
      | None => mret (al, node_count)
      | Some (count, last) =>
          massert (bool_decide (count = 1));;
          c ← load (tree + 8 * last);
          store let_ptr c;;
          al' ← allocator_free al tree;
          trie_reduce path al' (sub64 node_count 1)
      end
  end.

(** tommytrie.c:170-253 trie_bucket_remove_existing, from the label recurse.
    let_back has TOMMY_TRIE_LEVEL_MAX + 1 elements: writing beyond them is
    undefined.  Returns the node removed or 0, the allocator and node_count. *)
Fixpoint trie_bucket_remove_existing (fuel : nat) (al : allocator) (node_count shift let_ptr remove key : Z)
    (path : list Z) : M (Z * (allocator * Z)) :=
  ptr ← load let_ptr;
  if decide (ptr = null) then mret (0, (al, node_count))
  else if decide (trie_get_type ptr = 1) then
    let tree := trie_get_tree ptr in
    massert (bool_decide (Z.of_nat (length path) < TRIE_LEVEL_MAX + 1));;
    d ← trie_digit key shift;
    match fuel with
    | O => fuel_out
    | S fuel =>
        trie_bucket_remove_existing fuel al node_count (sub32 shift TRIE_TREE_BIT) (tree + 8 * d) remove key
          (let_ptr :: path)
    end
  else
    let node := ptr in
    remove ← (if decide (remove = null) then
                index ← load (f_index node);
                mret (if decide (index <> key) then null else node)
              else mret remove);
    if decide (remove = null) then mret (0, (al, node_count)) else
    list_remove_existing let_ptr remove;;
    left ← load let_ptr;
    r ← (if decide (left <> null) then mret (al, node_count) else trie_reduce path al node_count);
    mret (remove, r).

(** tommytrie.c:255-273 tommy_trie_remove *)
Definition trie_remove (fuel : nat) (t : trie) (al : allocator) (key : Z) : M (trie * allocator * Z) :=
  let_ptr ← trie_let_ptr t key;
  r ← trie_bucket_remove_existing fuel al (tri_node_count t) TRIE_BUCKET_SHIFT let_ptr 0 key [];
  if decide (r.1 = null) then mret (Trie (tri_bucket t) (tri_count t) r.2.2, r.2.1, 0) else
  data ← load (f_data r.1);
  mret (Trie (tri_bucket t) (sub64 (tri_count t) 1) r.2.2, r.2.1, data).

(** tommytrie.c:275-294 tommy_trie_remove_existing *)
Definition trie_remove_existing (fuel : nat) (t : trie) (al : allocator) (node : Z) : M (trie * allocator * Z) :=
  key ← load (f_index node);
  let_ptr ← trie_let_ptr t key;
  r ← trie_bucket_remove_existing fuel al (tri_node_count t) TRIE_BUCKET_SHIFT let_ptr node key [];
  massert (bool_decide (r.1 = node));;
  data ← load (f_data r.1);
  mret (Trie (tri_bucket t) (sub64 (tri_count t) 1) r.2.2, r.2.1, data).

(** tommytrie.c:310-327, from the label recurse of tommy_trie_bucket *)
Fixpoint trie_bucket_loop (fuel : nat) (shift ptr key : Z) : M Z :=
  if decide (ptr = null) then mret 0
  else if decide (trie_get_type ptr = 0) then
    index ← load (f_index ptr);
    mret (if decide (index <> key) then 0 else ptr)
  else
    d ← trie_digit key shift;
    ptr' ← load (trie_get_tree ptr + 8 * d);
    match fuel with
    | O => fuel_out
    | S fuel => trie_bucket_loop fuel (sub32 shift TRIE_TREE_BIT) ptr' key
    end.

(** tommytrie.c:296-328 tommy_trie_bucket *)
Definition trie_bucket (fuel : nat) (t : trie) (key : Z) : M Z :=
  let_ptr ← trie_let_ptr t key;
  ptr ← load let_ptr;
  trie_bucket_loop fuel TRIE_BUCKET_SHIFT ptr key.

(** tommytrie.h:238-246 tommy_trie_search *)
Definition trie_search (fuel : nat) (t : trie) (key : Z) : M Z :=
  i ← trie_bucket fuel t key;
  if decide (i = null) then mret 0 else load (f_data i).

(** tommytrie.h:258-261 tommy_trie_count *)
Definition trie_count (t : trie) : Z := tri_count t.

(** tommytrie.c:330-334 tommy_trie_memory_usage *)
Definition trie_memory_usage (t : trie) : Z :=
  wrap (wrap (trie_count t * 32) + wrap (tri_node_count t * TRIE_BLOCK_SIZE)).
