(** * Specification of tommytree: sorted sets. *)
From Verif Require Export Client Tree.
Global Open Scope Z_scope.

(** ** Operations of a client *)
Inductive trop :=
| TrInit (f : Z -> Z -> M Z) (c : Z -> Z -> Z)
                                    (* tommy_tree_init(tree, f), where f computes c *)
| TrInsert (p d : Z)                (* tommy_tree_insert(tree, p, d) *)
| TrRemove (d : Z)                  (* tommy_tree_remove(tree, d) *)
| TrRemoveExisting (p : Z)          (* tommy_tree_remove_existing(tree, p) *)
| TrSearch (d : Z)                  (* tommy_tree_search(tree, d) *)
| TrSearchCompare (f : Z -> Z -> M Z) (g : Z -> Z -> Z) (k : Z)
                                    (* tommy_tree_search_compare(tree, f, k), where f computes g *)
| TrCount                           (* tommy_tree_count(tree) *)
| TrUsage                           (* tommy_tree_memory_usage(tree) *)
| TrForeach                         (* tommy_tree_foreach(tree, visit) *)
| TrForeachArg (arg : Z)            (* tommy_tree_foreach_arg(tree, visit, arg) *)
| TrForeachFree.                    (* tommy_tree_foreach(tree, free) *)

Inductive trout :=
| TrNone
| TrWord (z : Z)                    (* a number *)
| TrFound (z : Z) (calls : list Z)  (* a pointer, and the arguments of the calls of the comparison *)
| TrData (l : list Z).              (* what the callback was called with, in order *)

(** The client's code for each operation; there is at most one tree at a time.
    [t] is the tape of the callbacks; the comparisons are recorded on it. *)
Definition trstep (fuel : nat) (t : Z) (cs : option treeS) (o : trop) : M (option treeS * trout) :=
  match o, cs with
  | TrInit f _, _ => mret (Some (tree_init (tape_cmp t (fun _ => f))), TrNone)
  | TrInsert p d, Some st =>
      r ← tree_insert fuel st p d; l ← tape_take t; mret (Some r.2, TrFound r.1 l)
  | TrRemove d, Some st =>
      r ← tree_remove fuel st d; l ← tape_take t; mret (Some r.2, TrFound r.1 l)
  | TrRemoveExisting p, Some st =>
      r ← tree_remove_existing fuel st p; l ← tape_take t; mret (Some r.2, TrFound r.1 l)
  | TrSearch d, Some st =>
      r ← tree_search fuel st d; l ← tape_take t; mret (Some st, TrFound r l)
  | TrSearchCompare f _ k, Some st =>
      r ← tree_search_compare fuel st (tape_cmp t (fun _ => f)) k; l ← tape_take t; mret (Some st, TrFound r l)
  | TrCount, Some st => mret (Some st, TrWord (tree_count st))
  | TrUsage, Some st => mret (Some st, TrWord (tree_memory_usage st))
  | TrForeach, Some st => tree_foreach fuel st (visit t);; l ← tape_take t; mret (Some st, TrData l)
  | TrForeachArg arg, Some st =>
      tree_foreach_arg fuel st (visit_arg t) arg;; l ← tape_take t; mret (Some st, TrData l)
  | TrForeachFree, Some st => tree_foreach fuel st (visit_free t);; l ← tape_take t; mret (None, TrData l)
  | _, None => ub
  end.

(** The operations that call the comparison of the tree. *)
Definition compares (o : trop) : Prop :=
  match o with TrInsert _ _ | TrRemove _ | TrSearch _ | TrRemoveExisting _ => True | _ => False end.

(** ** Abstract state *)
Record trstate := TrState {
  ts_free : gset Z;                                           (* client nodes not in the tree *)
  ts_tree : option ((Z -> Z -> Z) * list (Z * Z));            (* comparison; (node, data) in increasing order *)
  ts_live : gmap Z region }.                                  (* live heap blocks *)

(** Strictly increasing *)
Definition increasing (c : Z -> Z -> Z) (xs : list (Z * Z)) : Prop :=
  StronglySorted (fun x y => c x.2 y.2 < 0) xs.

(** [f k] is compatible with the order of the elements: below the first element
    accepted it says "greater", above the last one "smaller". *)
Definition suborder (c f : Z -> Z -> Z) (k : Z) (xs : list (Z * Z)) : Prop :=
  forall x y, x ∈ xs -> y ∈ xs -> c x.2 y.2 < 0 ->
  (f k y.2 > 0 -> f k x.2 > 0) /\ (f k x.2 < 0 -> f k y.2 < 0).

(** In a tree of [n] elements a path has at most 1.4407 log2(n + 1) + 1 nodes:
    59 (k - 1) <= 85 log2(n + 1). *)
Definition log_bound (k n : nat) : Prop :=
  2 ^ (59 * (Z.of_nat k - 1)) <= (Z.of_nat n + 1) ^ 85.

(** The comparison was called with [d] and elements of the tree, and few times. *)
Definition few_calls (d : Z) (xs : list (Z * Z)) (calls : list Z) : Prop :=
  exists ys, calls = (y ← ys; [d; y]) /\ (forall y, y ∈ ys -> y ∈ xs.*2) /\ log_bound (length ys) (length xs).

(** What a client may do.  [K] is the memory that the comparisons read and [D]
    are the data that the comparison of the tree can be called with. *)
Definition trpre (om : objmap) (K : mem) (D : Z -> Prop) (s : trstate) (o : trop) : Prop :=
  match o with
  | TrInit f c => total_preorder c /\ forall a b, D a -> D b -> reads K f c a b
  | TrInsert p d => is_Some (ts_tree s) /\ p ∈ ts_free s /\ D d
  | TrRemoveExisting p => exists c xs d, ts_tree s = Some (c, xs) /\ (p, d) ∈ xs /\ d <> 0
  | TrSearchCompare f g k =>
      exists c xs, ts_tree s = Some (c, xs) /\ suborder c g k xs /\ forall x, x ∈ xs.*2 -> reads K f g k x
  | TrRemove d | TrSearch d => is_Some (ts_tree s) /\ D d
  | TrCount | TrUsage | TrForeach | TrForeachArg _ => is_Some (ts_tree s)
  | TrForeachFree =>
      exists c xs, ts_tree s = Some (c, xs) /\ Forall (fun pd => freeable (ts_live s) om pd.1 pd.2) xs
  end.

Definition tree_nodes (s : trstate) : list Z := match ts_tree s with Some (_, xs) => xs.*1 | None => [] end.

(** What the answer and the new state must be. *)
Definition trpost (s : trstate) (o : trop) (a : trout) (s' : trstate) : Prop :=
  match o with
  | TrInit _ c =>
      a = TrNone /\ s' = TrState (ts_free s ∪ list_to_set (tree_nodes s)) (Some (c, [])) (ts_live s)
  | TrInsert p d =>
      exists c xs z calls, ts_tree s = Some (c, xs) /\ a = TrFound z calls /\ few_calls d xs calls /\
      ((exists q, (q, z) ∈ xs /\ c d z = 0 /\ s' = s) \/
       (exists l r, xs = l ++ r /\ Forall (fun x => c x.2 d < 0) l /\ Forall (fun x => c d x.2 < 0) r /\
          z = d /\ s' = TrState (ts_free s ∖ {[p]}) (Some (c, l ++ (p, d) :: r)) (ts_live s)))
  | TrRemove d =>
      exists c xs z calls, ts_tree s = Some (c, xs) /\ a = TrFound z calls /\ few_calls d xs calls /\
      ((exists l q r, xs = l ++ (q, z) :: r /\ c d z = 0 /\
          s' = TrState (ts_free s ∪ {[q]}) (Some (c, l ++ r)) (ts_live s)) \/
       (Forall (fun x => c d x.2 <> 0) xs /\ z = 0 /\ s' = s))
  | TrRemoveExisting p =>
      exists c l d r calls, ts_tree s = Some (c, l ++ (p, d) :: r) /\ a = TrFound d calls /\
      few_calls d (l ++ (p, d) :: r) calls /\
      s' = TrState (ts_free s ∪ {[p]}) (Some (c, l ++ r)) (ts_live s)
  | TrSearch d =>
      exists c xs z calls, ts_tree s = Some (c, xs) /\ a = TrFound z calls /\ few_calls d xs calls /\ s' = s /\
      ((exists q, (q, z) ∈ xs /\ c d z = 0) \/ (Forall (fun x => c d x.2 <> 0) xs /\ z = 0))
  | TrSearchCompare _ f k =>
      exists c xs z calls, ts_tree s = Some (c, xs) /\ a = TrFound z calls /\ few_calls k xs calls /\ s' = s /\
      ((exists q, (q, z) ∈ xs /\ f k z = 0) \/ (Forall (fun x => f k x.2 <> 0) xs /\ z = 0))
  | TrCount => exists c xs, ts_tree s = Some (c, xs) /\ a = TrWord (Z.of_nat (length xs)) /\ s' = s
  | TrUsage => exists c xs, ts_tree s = Some (c, xs) /\ a = TrWord (32 * Z.of_nat (length xs)) /\ s' = s
  | TrForeach => exists c xs, ts_tree s = Some (c, xs) /\ a = TrData xs.*2 /\ s' = s
  | TrForeachArg arg =>
      exists c xs, ts_tree s = Some (c, xs) /\ a = TrData (pd ← xs; [arg; pd.2]) /\ s' = s
  | TrForeachFree =>
      exists c xs, ts_tree s = Some (c, xs) /\ a = TrData xs.*2 /\
      s' = TrState (ts_free s) None (free_all xs.*2 (ts_live s))
  end.

(** ** The initial memory: the client's objects and the tape [t]. *)
Definition tree_start (om : objmap) (K : mem) (t : Z) (live : gmap Z region) (m : mem) : Prop :=
  client_ok 4 om [HCTL; t] m /\ m !! t = Some (Tape []) /\ heap_live m live /\
  separate K (HCTL :: t :: objs_cells om) m.

Definition trstate0 (om : objmap) (live : gmap Z region) : trstate := TrState (dom om) None live.

(** ** A tree in memory, spelled out cell by cell *)
Inductive tree := Leaf | Node (p d i : Z) (l r : tree).

Definition root (t : tree) : Z := match t with Leaf => 0 | Node p _ _ _ _ => p end.
Fixpoint inorder (t : tree) : list (Z * Z) :=
  match t with Leaf => [] | Node p d _ l r => inorder l ++ (p, d) :: inorder r end.
(** Number of nodes of the longest path from the root *)
Fixpoint depth (t : tree) : nat :=
  match t with Leaf => O | Node _ _ _ l r => S (Nat.max (depth l) (depth r)) end.

Fixpoint tree_at (m : mem) (t : tree) : Prop :=
  match t with
  | Leaf => True
  | Node p d i l r =>
      0 < p /\ m !! f_next p = Some (W (root r)) /\ m !! f_prev p = Some (W (root l)) /\
      m !! f_data p = Some (W d) /\ m !! f_index p = Some (W i) /\ tree_at m l /\ tree_at m r
  end.

(** The heights of the two subtrees of every node differ by at most [k]. *)
Fixpoint height_balanced (k : nat) (t : tree) : Prop :=
  match t with
  | Leaf => True
  | Node _ _ _ l r =>
      (depth l <= depth r + k)%nat /\ (depth r <= depth l + k)%nat /\
      height_balanced k l /\ height_balanced k r
  end.

(** The state at the end of a history. *)
Definition tree_end (om : objmap) (live : gmap Z region) (cs : option treeS) (tr : list (trop * trout)) (m' : mem) : Prop :=
  exists s', correct trpost (trstate0 om live) tr s' /\ heap_live m' (ts_live s') /\
  match ts_tree s' with
  | None => cs = None
  | Some (c, xs) => exists st T, cs = Some st /\ tr_root st = root T /\ tree_at m' T /\ inorder T = xs /\
      increasing c xs /\ log_bound (depth T) (length xs) /\ height_balanced 2 T /\
      tr_count st = Z.of_nat (length xs)
  end.

(** ** Reading a transcript *)
Definition after_any_tree_history
    (Q : gmap Z region -> option treeS -> list (trop * trout) -> mem -> Prop) : Prop :=
  forall om K D t live m fuel c, tree_start om K t live m -> (size om + 4 <= fuel)%nat ->
  allowed (trpre om K D) trpost (trstate0 om live) c ->
  succeeds (run (trstep fuel t) None c m) (fun r m' => Q live r.1 r.2 m').

(** The comparison of the last init and the elements inserted and not removed,
    from the operations alone. *)
Definition tset_step (s : (Z -> Z -> Z) * list (Z * Z)) (o : trop) : (Z -> Z -> Z) * list (Z * Z) :=
  let (c, xs) := s in
  match o with
  | TrInit _ c => (c, [])
  | TrInsert p d => (c, if decide (Exists (fun x => c d x.2 = 0) xs) then xs else (p, d) :: xs)
  | TrRemove d => (c, filter (fun x => c d x.2 <> 0) xs)
  | TrRemoveExisting p => (c, filter (fun x => x.1 <> p) xs)
  | TrForeachFree => (c, [])
  | _ => s
  end.
Definition tset (ops : list trop) : (Z -> Z -> Z) * list (Z * Z) := foldl tset_step (fun _ _ => 0, []) ops.
