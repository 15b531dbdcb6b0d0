(** * Specification of tommytree with a comparison that is not an order. *)
From Verif Require Export TreeSpec.
Global Open Scope Z_scope.

(** Called with [a] and [b], [f] returns some number and writes nothing.  The
    number can depend on the whole memory, so on the tree itself, on the calls
    made before (they are on the tape) and on the moment. *)
Definition answers (K : mem) (f : Z -> Z -> M Z) (a b : Z) : Prop :=
  forall m, K ⊆ m -> exists z, f a b m = Ok z m.
(** In some memory [f] says that [a] and [b] are equal. *)
Definition may_equal (f : Z -> Z -> M Z) (a b : Z) : Prop := exists m, f a b m = Ok 0 m.

(** ** Abstract state *)
Record anystate := AnyState {
  as_free : gset Z;                                           (* client nodes not in the tree *)
  as_tree : option ((Z -> Z -> M Z) * list (Z * Z));          (* comparison; (node, data) in the order of the visits *)
  as_live : gmap Z region }.                                  (* live heap blocks *)

(** What a client may do: the operations of [trop] without
    tommy_tree_remove_existing, whose assert can fail.  [D] are the data that the
    comparison can be called with. *)
Definition anypre (om : objmap) (K : mem) (D : Z -> Prop) (s : anystate) (o : trop) : Prop :=
  match o with
  | TrInit f _ => forall a b, D a -> D b -> answers K f a b
  | TrInsert p d => is_Some (as_tree s) /\ p ∈ as_free s /\ D d
  | TrRemoveExisting _ => False
  | TrSearchCompare f _ k => exists f0 xs, as_tree s = Some (f0, xs) /\ forall x, x ∈ xs.*2 -> answers K f k x
  | TrRemove d | TrSearch d => is_Some (as_tree s) /\ D d
  | TrCount | TrUsage | TrForeach | TrForeachArg _ => is_Some (as_tree s)
  | TrForeachFree =>
      exists f xs, as_tree s = Some (f, xs) /\ Forall (fun pd => freeable (as_live s) om pd.1 pd.2) xs
  end.

Definition any_nodes (s : anystate) : list Z := match as_tree s with Some (_, xs) => xs.*1 | None => [] end.

(** What the answer and the new state must be: an insertion adds the element at
    some place, or returns an element of the tree; a removal removes one element
    and returns it, or returns 0 and removes nothing. *)
Definition anypost (s : anystate) (o : trop) (a : trout) (s' : anystate) : Prop :=
  match o with
  | TrInit f _ =>
      a = TrNone /\ s' = AnyState (as_free s ∪ list_to_set (any_nodes s)) (Some (f, [])) (as_live s)
  | TrInsert p d =>
      exists f xs z calls, as_tree s = Some (f, xs) /\ a = TrFound z calls /\ few_calls d xs calls /\
      ((exists q, (q, z) ∈ xs /\ may_equal f d z /\ s' = s) \/
       (exists l r, xs = l ++ r /\ z = d /\
          s' = AnyState (as_free s ∖ {[p]}) (Some (f, l ++ (p, d) :: r)) (as_live s)))
  | TrRemove d =>
      exists f xs z calls, as_tree s = Some (f, xs) /\ a = TrFound z calls /\ few_calls d xs calls /\
      ((exists l q r, xs = l ++ (q, z) :: r /\ may_equal f d z /\
          s' = AnyState (as_free s ∪ {[q]}) (Some (f, l ++ r)) (as_live s)) \/
       (z = 0 /\ s' = s))
  | TrRemoveExisting _ => False
  | TrSearch d =>
      exists f xs z calls, as_tree s = Some (f, xs) /\ a = TrFound z calls /\ few_calls d xs calls /\ s' = s /\
      ((exists q, (q, z) ∈ xs /\ may_equal f d z) \/ z = 0)
  | TrSearchCompare f _ k =>
      exists f0 xs z calls, as_tree s = Some (f0, xs) /\ a = TrFound z calls /\ few_calls k xs calls /\ s' = s /\
      ((exists q, (q, z) ∈ xs /\ may_equal f k z) \/ z = 0)
  | TrCount => exists f xs, as_tree s = Some (f, xs) /\ a = TrWord (Z.of_nat (length xs)) /\ s' = s
  | TrUsage => exists f xs, as_tree s = Some (f, xs) /\ a = TrWord (32 * Z.of_nat (length xs)) /\ s' = s
  | TrForeach => exists f xs, as_tree s = Some (f, xs) /\ a = TrData xs.*2 /\ s' = s
  | TrForeachArg arg =>
      exists f xs, as_tree s = Some (f, xs) /\ a = TrData (pd ← xs; [arg; pd.2]) /\ s' = s
  | TrForeachFree =>
      exists f xs, as_tree s = Some (f, xs) /\ a = TrData xs.*2 /\
      s' = AnyState (as_free s) None (free_all xs.*2 (as_live s))
  end.

Definition anystate0 (om : objmap) (live : gmap Z region) : anystate := AnyState (dom om) None live.

(** The state at the end of a history: the tree in memory holds the elements of
    the abstract state, is balanced, and its count is exact. *)
Definition any_end (om : objmap) (live : gmap Z region) (cs : option treeS) (tr : list (trop * trout)) (m' : mem) : Prop :=
  exists s', correct anypost (anystate0 om live) tr s' /\ heap_live m' (as_live s') /\
  match as_tree s' with
  | None => cs = None
  | Some (f, xs) => exists st T, cs = Some st /\ tr_root st = root T /\ tree_at m' T /\ inorder T = xs /\ NoDup xs.*1 /\
      log_bound (depth T) (length xs) /\ height_balanced 2 T /\ tr_count st = Z.of_nat (length xs)
  end.
