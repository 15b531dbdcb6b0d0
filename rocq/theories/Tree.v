(** * Model of tommytree.h and tommytree.c: the balanced binary tree. *)
From Verif Require Export Bits.
Global Open Scope Z_scope.

(** tommytree.h:118-122 tommy_tree.  The struct is not address-taken by the
    library: a record. *)
Record treeS := TreeS {
  tr_root : Z;
  tr_cmp : Z -> Z -> M Z;
  tr_count : Z }.

(** tommytree.c:35-40 tommy_tree_init *)
Definition tree_init (cmp : Z -> Z -> M Z) : treeS := TreeS null cmp 0.

(** conversion of a tommy_size_t to tommy_ssize_t (two's complement) *)
Definition to_ssize (z : Z) : Z := if decide (z < 2 ^ 63) then z else z - 2 ^ 64.

(** tommytree.c:44-45 [child ? child->index : 0] converted to tommy_ssize_t *)
Definition tree_height (child : Z) : M Z :=
  if decide (child = null) then mret 0 else (i ← load (f_index child); mret (to_ssize i)).

(** tommytree.c:42-48 tommy_tree_delta.  Overflow of the signed subtraction is
    undefined behaviour. *)
Definition tree_delta (root : Z) : M Z :=
  prev ← load (f_prev root);
  left_height ← tree_height prev;
  next ← load (f_next root);
  right_height ← tree_height next;
  massert (bool_decide (- 2 ^ 63 <= left_height - right_height < 2 ^ 63));;
  mret (left_height - right_height).

(** The functions balance, rotate_left and rotate_right are mutually recursive;
    the rotations take balance as an argument. *)

(** tommytree.c:53-62 tommy_tree_rotate_left *)
Definition tree_rotate_left (balance : Z -> M Z) (root : Z) : M Z :=
  next ← load (f_next root);
  next_prev ← load (f_prev next);
  store (f_next root) next_prev;;
  b ← balance root;
  store (f_prev next) b;;
  balance next.

(** tommytree.c:64-73 tommy_tree_rotate_right *)
Definition tree_rotate_right (balance : Z -> M Z) (root : Z) : M Z :=
  prev ← load (f_prev root);
  prev_next ← load (f_next prev);
  store (f_prev root) prev_next;;
  b ← balance root;
  store (f_next prev) b;;
  balance prev.

(** tommytree.c:104-108 [if (child && child->index > root->index) root->index = child->index] *)
Definition tree_index_max (root child : Z) : M unit :=
  if decide (child = null) then mret tt else
  ci ← load (f_index child);
  ri ← load (f_index root);
  if decide (ci > ri) then store (f_index root) ci else mret tt.

(** tommytree.c:85-114 tommy_tree_balance.  [fuel] bounds the depth of the
    recursion. *)
Fixpoint tree_balance (fuel : nat) (root : Z) : M Z :=
  match fuel with
  | O => fuel_out
  | S fuel =>
      delta ← tree_delta root;
      if decide (delta < -1) then
        next ← load (f_next root);
        d ← tree_delta next;
        (if decide (d > 0) then
           next ← load (f_next root);
           r ← tree_rotate_right (tree_balance fuel) next;
           store (f_next root) r
         else mret tt);;
        tree_rotate_left (tree_balance fuel) root
      else if decide (delta > 1) then
        prev ← load (f_prev root);
        d ← tree_delta prev;
        (if decide (d < 0) then
           prev ← load (f_prev root);
           r ← tree_rotate_left (tree_balance fuel) prev;
           store (f_prev root) r
         else mret tt);;
        tree_rotate_right (tree_balance fuel) root
      else
        store (f_index root) 0;;
        prev ← load (f_prev root);
        tree_index_max root prev;;
        next ← load (f_next root);
        tree_index_max root next;;
        i ← load (f_index root);
        store (f_index root) (add64 i 1);;
        mret root
  end.

(** In the recursive functions that follow [bf] is the fuel of balance. *)

(** tommytree.c:75-83 tommy_tree_move_right *)
Fixpoint tree_move_right (bf fuel : nat) (root node : Z) : M Z :=
  if decide (root = null) then mret node else
  match fuel with
  | O => fuel_out
  | S fuel =>
      next ← load (f_next root);
      r ← tree_move_right bf fuel next node;
      store (f_next root) r;;
      tree_balance bf root
  end.

(** tommytree.c:116-139 tommy_tree_insert_node.  Returns the new root and the
    new value of [*let]. *)
Fixpoint tree_insert_node (bf fuel : nat) (cmp : Z -> Z -> M Z) (root insert : Z) : M (Z * Z) :=
  if decide (root = null) then mret (insert, insert) else
  match fuel with
  | O => fuel_out
  | S fuel =>
      insert_data ← load (f_data insert);
      root_data ← load (f_data root);
      c ← cmp insert_data root_data;
      if decide (c < 0) then
        prev ← load (f_prev root);
        r ← tree_insert_node bf fuel cmp prev insert;
        store (f_prev root) r.1;;
        b ← tree_balance bf root;
        mret (b, r.2)
      else if decide (c > 0) then
        next ← load (f_next root);
        r ← tree_insert_node bf fuel cmp next insert;
        store (f_next root) r.1;;
        b ← tree_balance bf root;
        mret (b, r.2)
      else mret (root, root)
  end.

(** tommytree.c:141-156 tommy_tree_insert *)
Definition tree_insert (fuel : nat) (tree : treeS) (node data : Z) : M (Z * treeS) :=
  store (f_data node) data;;
  store (f_prev node) null;;
  store (f_next node) null;;
  store (f_index node) 0;;
  r ← tree_insert_node fuel fuel (tr_cmp tree) (tr_root tree) node;
  let count := if decide (r.2 = node) then add64 (tr_count tree) 1 else tr_count tree in
  d ← load (f_data r.2);
  mret (d, TreeS r.1 (tr_cmp tree) count).

(** tommytree.c:158-181 tommy_tree_remove_node.  Returns the new root and the
    new value of [*let], where [found] is the old one. *)
Fixpoint tree_remove_node (bf fuel : nat) (cmp : Z -> Z -> M Z) (root data found : Z) : M (Z * Z) :=
  if decide (root = null) then mret (null, found) else
  match fuel with
  | O => fuel_out
  | S fuel =>
      root_data ← load (f_data root);
      c ← cmp data root_data;
      if decide (c < 0) then
        prev ← load (f_prev root);
        r ← tree_remove_node bf fuel cmp prev data found;
        store (f_prev root) r.1;;
        b ← tree_balance bf root;
        mret (b, r.2)
      else if decide (c > 0) then
        next ← load (f_next root);
        r ← tree_remove_node bf fuel cmp next data found;
        store (f_next root) r.1;;
        b ← tree_balance bf root;
        mret (b, r.2)
      else
        prev ← load (f_prev root);
        next ← load (f_next root);
        r ← tree_move_right bf fuel prev next;
        mret (r, root)
  end.

(** tommytree.c:183-195 tommy_tree_remove *)
Definition tree_remove (fuel : nat) (tree : treeS) (data : Z) : M (Z * treeS) :=
  r ← tree_remove_node fuel fuel (tr_cmp tree) (tr_root tree) data null;
  if decide (r.2 = null) then mret (0, TreeS r.1 (tr_cmp tree) (tr_count tree)) else
  d ← load (f_data r.2);
  mret (d, TreeS r.1 (tr_cmp tree) (sub64 (tr_count tree) 1)).

(** tommytree.c:197-213 tommy_tree_search_node *)
Fixpoint tree_search_node (fuel : nat) (cmp : Z -> Z -> M Z) (root data : Z) : M Z :=
  if decide (root = null) then mret null else
  match fuel with
  | O => fuel_out
  | S fuel =>
      root_data ← load (f_data root);
      c ← cmp data root_data;
      if decide (c < 0) then prev ← load (f_prev root); tree_search_node fuel cmp prev data
      else if decide (c > 0) then next ← load (f_next root); tree_search_node fuel cmp next data
      else mret root
  end.

(** tommytree.c:225-233 tommy_tree_search_compare *)
Definition tree_search_compare (fuel : nat) (tree : treeS) (cmp : Z -> Z -> M Z) (cmp_arg : Z) : M Z :=
  node ← tree_search_node fuel cmp (tr_root tree) cmp_arg;
  if decide (node = null) then mret 0 else load (f_data node).

(** tommytree.c:215-223 tommy_tree_search: the same with the comparison of the
    tree *)
Definition tree_search (fuel : nat) (tree : treeS) (data : Z) : M Z :=
  node ← tree_search_node fuel (tr_cmp tree) (tr_root tree) data;
  if decide (node = null) then mret 0 else load (f_data node).

(** tommytree.c:235-242 tommy_tree_remove_existing *)
Definition tree_remove_existing (fuel : nat) (tree : treeS) (node : Z) : M (Z * treeS) :=
  node_data ← load (f_data node);
  r ← tree_remove fuel tree node_data;
  massert (bool_decide (r.1 <> 0));;
  mret r.

(** tommytree.c:244-259 tommy_tree_foreach_node; next is read before the
    callback is called *)
Fixpoint tree_foreach_node (fuel : nat) (root : Z) (func : Z -> M unit) : M unit :=
  if decide (root = null) then mret tt else
  match fuel with
  | O => fuel_out
  | S fuel =>
      prev ← load (f_prev root);
      tree_foreach_node fuel prev func;;
      next ← load (f_next root);
      data ← load (f_data root);
      func data;;
      tree_foreach_node fuel next func
  end.

(** tommytree.c:261-264 tommy_tree_foreach *)
Definition tree_foreach (fuel : nat) (tree : treeS) (func : Z -> M unit) : M unit :=
  tree_foreach_node fuel (tr_root tree) func.

(** tommytree.c:266-286 tommy_tree_foreach_arg_node and tommy_tree_foreach_arg:
    the same recursion, [func(arg, data)] *)
Definition tree_foreach_arg (fuel : nat) (tree : treeS) (func : Z -> Z -> M unit) (arg : Z) : M unit :=
  tree_foreach_node fuel (tr_root tree) (func arg).

(** tommytree.h:216-219 tommy_tree_count *)
Definition tree_count (tree : treeS) : Z := tr_count tree.

(** tommytree.c:288-291 tommy_tree_memory_usage *)
Definition tree_memory_usage (tree : treeS) : Z := wrap (tree_count tree * 32).
