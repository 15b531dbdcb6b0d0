(** * Model of tommytrieinp.h and tommytrieinp.c: the trie without inner blocks. *)
From Verif Require Export Trie.
Global Open Scope Z_scope.

(** tommytrieinp.h:134-156 and tommytrieinp.c:38-43 *)
Definition INP_BIT : Z := 32.
Definition INP_TREE_MAX : Z := 4.
Definition INP_TREE_BIT : Z := 2.
Definition INP_BUCKET_BIT : Z := INP_BIT mod INP_TREE_BIT + 3 * INP_TREE_BIT.
Definition INP_BUCKET_MAX : Z := 2 ^ INP_BUCKET_BIT.
Definition INP_TREE_MASK : Z := INP_TREE_MAX - 1.
Definition INP_BUCKET_SHIFT : Z := INP_BIT - INP_BUCKET_BIT.

(** tommytrieinp.h:162-168 tommy_trie_inplace_node: next, prev and data are
    where those of tommy_node are, then four words map and the word key. *)
Definition f_map (p i : Z) : Z := p + 24 + 8 * i.
Definition f_key (p : Z) : Z := p + 56.

(** tommytrieinp.h:174-177 tommy_trie_inplace.  [inp_bucket] is the address of
    the array bucket. *)
Record inptrie := InpTrie { inp_bucket : Z; inp_count : Z }.

(** tommytrieinp.c:48-57 tommy_trie_inplace_list_insert_first *)
Definition inp_list_insert_first (node : Z) : M Z :=
  store (f_prev node) node;;
  store (f_next node) null;;
  mret node.

(** tommytrieinp.c:63-74 tommy_trie_inplace_list_insert_tail_not_empty *)
Definition inp_list_insert_tail_not_empty (head node : Z) : M unit :=
  head_prev ← load (f_prev head);
  store (f_prev node) head_prev;;
  store (f_prev head) node;;
  store (f_next node) null;;
  node_prev ← load (f_prev node);
  store (f_next node_prev) node.

(** tommytrieinp.c:79-94 tommy_trie_inplace_list_remove *)
Definition inp_list_remove (let_ptr node : Z) : M unit :=
  head ← load let_ptr;
  node_next ← load (f_next node);
  (if decide (node_next = null) then
     node_prev ← load (f_prev node);
     store (f_prev head) node_prev
   else
     node_prev ← load (f_prev node);
     store (f_prev node_next) node_prev);;
  if decide (head = node) then
    node_next ← load (f_next node);
    store let_ptr node_next
  else
    node_prev ← load (f_prev node);
    node_next ← load (f_next node);
    store (f_next node_prev) node_next.

(** tommytrieinp.c:96-104 tommy_trie_inplace_init, for a trie whose bucket
    array is at [bucket] *)
Definition inp_init (bucket : Z) : M inptrie :=
  clear_loop bucket (Z.to_nat INP_BUCKET_MAX);;
  mret (InpTrie bucket 0).

(** [(key >> shift) & TOMMY_TRIE_INPLACE_TREE_MASK] *)
Definition inp_digit (key shift : Z) : M Z :=
  d ← shr_key key shift;
  mret (Z.land d INP_TREE_MASK).

(** tommytrieinp.c:110-115 and 155-160: the loop that looks for the key, which
    loads the node from let_ptr before every test; returns let_ptr and node. *)
Fixpoint inp_find (fuel : nat) (shift let_ptr key : Z) : M (Z * Z) :=
  node ← load let_ptr;
  if decide (node = null) then mret (let_ptr, node) else
  node_key ← load (f_key node);
  if decide (node_key <> key) then
    d ← inp_digit key shift;
    match fuel with
    | O => fuel_out
    | S fuel => inp_find fuel (sub32 shift INP_TREE_BIT) (f_map node d) key
    end
  else mret (let_ptr, node).

(** tommytrieinp.c:106-125 trie_inplace_bucket_insert *)
Definition inp_bucket_insert (fuel : nat) (shift let_ptr insert key : Z) : M unit :=
  r ← inp_find fuel shift let_ptr key;
  let '(let_ptr, node) := r in
  if decide (node = null) then
    first ← inp_list_insert_first insert;
    store let_ptr first
  else inp_list_insert_tail_not_empty node insert.

(** [assert(key >> TOMMY_TRIE_INPLACE_BUCKET_SHIFT < TOMMY_TRIE_INPLACE_BUCKET_MAX)]
    and the address of the bucket *)
Definition inp_let_ptr (t : inptrie) (key : Z) : M Z :=
  i ← shr_key key INP_BUCKET_SHIFT;
  massert (bool_decide (i < INP_BUCKET_MAX));;
  mret (inp_bucket t + 8 * i).

(** tommytrieinp.c:127-146 tommy_trie_inplace_insert *)
Definition inp_insert (fuel : nat) (t : inptrie) (node data key : Z) : M inptrie :=
  let_ptr ← inp_let_ptr t key;
  store (f_data node) data;;
  store (f_key node) key;;
  clear_loop (f_map node 0) (Z.to_nat INP_TREE_MAX);;
  inp_bucket_insert fuel INP_BUCKET_SHIFT let_ptr node key;;
  mret (InpTrie (inp_bucket t) (add64 (inp_count t) 1)).

(** tommytrieinp.c:179-180 and 209-210: copies [n] words of the map, from the
    [i]-th *)
Fixpoint inp_copy_loop (n : nat) (to from i : Z) : M unit :=
  match n with
  | O => mret tt
  | S n => v ← load (f_map from i); store (f_map to i) v;; inp_copy_loop n to from (i + 1)
  end.

(** tommytrieinp.c:190-198, without changing leaf: the last of the first [n]
    words of the map that is not 0 *)
Fixpoint inp_scan (n : nat) (leaf : Z) : M (option Z) :=
  match n with
  | O => mret None
  | S i =>
      c ← load (f_map leaf (Z.of_nat i));
      if decide (c = null) then inp_scan i leaf else mret (Some (Z.of_nat i))
  end.
(** tommytrieinp.c:190-198, the whole loop; returns leaf_let_ptr and leaf *)
Fixpoint inp_leaf (fuel : nat) (leaf_let_ptr leaf : Z) : M (Z * Z) :=
  r ← inp_scan (Z.to_nat INP_TREE_MAX) leaf;
  match r with
  | None => mret (leaf_let_ptr, leaf)
  | Some i =>
      leaf' ← load (f_map leaf i);
      match fuel with
      | O => fuel_out
      | S fuel => inp_leaf fuel (f_map leaf i) leaf'
      end
  end.

(** tommytrieinp.c:148-216 trie_inplace_bucket_remove *)
Definition inp_bucket_remove (fuel : nat) (shift let_ptr remove key : Z) : M Z :=
  r ← inp_find fuel shift let_ptr key;
  let '(let_ptr, node) := r in
  if decide (node = null) then mret 0 else
  let remove := if decide (remove = null) then node else remove in
  inp_list_remove let_ptr remove;;
  head ← load let_ptr;
  if decide (head = node) then mret remove else
  if decide (head <> null) then
    inp_copy_loop (Z.to_nat INP_TREE_MAX) head remove 0;;
    mret remove
  else
    r ← inp_leaf fuel 0 remove;
    let '(leaf_let_ptr, leaf) := r in
    if decide (leaf_let_ptr = null) then mret remove else
    store leaf_let_ptr 0;;
    inp_copy_loop (Z.to_nat INP_TREE_MAX) leaf remove 0;;
    store let_ptr leaf;;
    mret remove.

(** tommytrieinp.c:218-236 tommy_trie_inplace_remove *)
Definition inp_remove (fuel : nat) (t : inptrie) (key : Z) : M (inptrie * Z) :=
  let_ptr ← inp_let_ptr t key;
  ret ← inp_bucket_remove fuel INP_BUCKET_SHIFT let_ptr 0 key;
  if decide (ret = null) then mret (t, 0) else
  data ← load (f_data ret);
  mret (InpTrie (inp_bucket t) (sub64 (inp_count t) 1), data).

(** tommytrieinp.c:238-257 tommy_trie_inplace_remove_existing *)
Definition inp_remove_existing (fuel : nat) (t : inptrie) (node : Z) : M (inptrie * Z) :=
  key ← load (f_key node);
  let_ptr ← inp_let_ptr t key;
  ret ← inp_bucket_remove fuel INP_BUCKET_SHIFT let_ptr node key;
  massert (bool_decide (ret = node));;
  data ← load (f_data ret);
  mret (InpTrie (inp_bucket t) (sub64 (inp_count t) 1), data).

(** tommytrieinp.c:270-273, the loop of tommy_trie_inplace_bucket *)
Fixpoint inp_bucket_loop (fuel : nat) (shift node key : Z) : M Z :=
  if decide (node = null) then mret node else
  node_key ← load (f_key node);
  if decide (node_key <> key) then
    d ← inp_digit key shift;
    node' ← load (f_map node d);
    match fuel with
    | O => fuel_out
    | S fuel => inp_bucket_loop fuel (sub32 shift INP_TREE_BIT) node' key
    end
  else mret node.

(** tommytrieinp.c:259-276 tommy_trie_inplace_bucket *)
Definition inp_bucket_of (fuel : nat) (t : inptrie) (key : Z) : M Z :=
  let_ptr ← inp_let_ptr t key;
  node ← load let_ptr;
  inp_bucket_loop fuel INP_BUCKET_SHIFT node key.

(** tommytrieinp.h:217-225 tommy_trie_inplace_search *)
Definition inp_search (fuel : nat) (t : inptrie) (key : Z) : M Z :=
  i ← inp_bucket_of fuel t key;
  if decide (i = null) then mret 0 else load (f_data i).

(** tommytrieinp.c:278-281 tommy_trie_inplace_memory_usage; the count is
    tommytrieinp.h:237-240 tommy_trie_inplace_count *)
Definition inp_memory_usage (t : inptrie) : Z := wrap (inp_count t * 64).
