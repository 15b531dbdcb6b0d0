(** * Specification of tommylist: sequences of nodes. *)
From Verif Require Export Client List Chain.
Global Open Scope Z_scope.

(** ** Operations of a client that works with any number of lists *)
Inductive lop :=
| LInit (l : Z)                   (* tommy_list_init(l) *)
| LInsertHead (l p d : Z)         (* tommy_list_insert_head(l, p, d) *)
| LInsertTail (l p d : Z)         (* tommy_list_insert_tail(l, p, d) *)
| LRemove (l p : Z)               (* tommy_list_remove_existing(l, p) *)
| LConcat (l1 l2 : Z)             (* tommy_list_concat(l1, l2) *)
| LSort (l : Z) (f : list Z -> Z -> Z -> M Z) (g : list Z -> Z -> Z -> Z)
                                  (* tommy_list_sort(l, f), where f computes g *)
| LHead (l : Z)                   (* tommy_list_head(l) *)
| LTail (l : Z)                   (* tommy_list_tail(l) *)
| LEmpty (l : Z)                  (* tommy_list_empty(l) *)
| LCount (l : Z)                  (* tommy_list_count(l) *)
| LWalk (l : Z)                   (* follow next from the head, reading data *)
| LForeach (l : Z)                (* tommy_list_foreach(l, visit) *)
| LForeachArg (l arg : Z)         (* tommy_list_foreach_arg(l, visit, arg) *)
| LForeachFree (l : Z).           (* tommy_list_foreach(l, free) *)

Inductive lout :=
| ONone
| OWord (z : Z)                (* a pointer or a number *)
| OBool (b : bool)
| OData (l : list Z)           (* what the callback was called with, in order *)
| ONodes (l : list (Z * Z)).   (* nodes with their data *)

(** The client's code for each operation.  [t] is the tape of the callbacks.
    Lists live in memory, so there is no struct to carry around. *)
Definition lstep (fuel : nat) (t : Z) (_ : unit) (o : lop) : M (unit * lout) :=
  a ← match o with
      | LInit l => list_init l;; mret ONone
      | LInsertHead l p d => list_insert_head l p d;; mret ONone
      | LInsertTail l p d => list_insert_tail l p d;; mret ONone
      | LRemove l p => d ← list_remove_existing l p; mret (OWord d)
      | LConcat l1 l2 => list_concat l1 l2;; mret ONone
      | LSort l f _ => list_sort fuel l (tape_cmp t f);; c ← tape_take t; mret (OData c)
      | LHead l => p ← list_head l; mret (OWord p)
      | LTail l => p ← list_tail l; mret (OWord p)
      | LEmpty l => b ← list_empty l; mret (OBool b)
      | LCount l => n ← list_count fuel l; mret (OWord n)
      | LWalk l => p ← list_head l; r ← list_walk fuel p; mret (ONodes r)
      | LForeach l => list_foreach fuel l (visit t);; c ← tape_take t; mret (OData c)
      | LForeachArg l arg => list_foreach_arg fuel l (visit_arg t) arg;; c ← tape_take t; mret (OData c)
      | LForeachFree l => list_foreach fuel l (visit_free t);; c ← tape_take t; mret (OData c)
      end;
  mret (tt, a).

(** ** Abstract state *)
Record lstate := LState {
  ls_free : gset Z;                         (* client nodes in no list *)
  ls_lists : gmap Z (option (list (Z * Z))); (* list variables; [None]: not a valid list *)
  ls_live : gmap Z region }.                (* live heap blocks *)

Definition has_list (s : lstate) (l : Z) (xs : list (Z * Z)) : Prop :=
  ls_lists s !! l = Some (Some xs).

Definition set_list (l : Z) (ox : option (list (Z * Z))) (s : lstate) : lstate :=
  LState (ls_free s) (<[l := ox]> (ls_lists s)) (ls_live s).
Definition give (p : Z) (s : lstate) : lstate :=
  LState (ls_free s ∪ {[p]}) (ls_lists s) (ls_live s).
Definition take (p : Z) (s : lstate) : lstate :=
  LState (ls_free s ∖ {[p]}) (ls_lists s) (ls_live s).

(** First and last node; 0 if empty. *)
Definition seq_head (xs : list (Z * Z)) : Z := default 0 (fst <$> head xs).
Definition seq_last (xs : list (Z * Z)) : Z := default 0 (fst <$> last xs).

(** What a client may do.  [K] is the memory that the comparison reads. *)
Definition lpre (om : objmap) (K : mem) (s : lstate) (o : lop) : Prop :=
  match o with
  | LInit l => is_Some (ls_lists s !! l)
  | LInsertHead l p _ | LInsertTail l p _ => p ∈ ls_free s /\ exists xs, has_list s l xs
  | LRemove l p => exists xs, has_list s l xs /\ p ∈ xs.*1
  | LConcat l1 l2 => l1 <> l2 /\ (exists xs, has_list s l1 xs) /\ (exists ys, has_list s l2 ys)
  | LSort l f g =>
      exists xs, has_list s l xs /\
      forall log a b, a ∈ xs.*2 -> b ∈ xs.*2 -> reads K (f log) (g log) a b
  | LHead l | LTail l | LEmpty l | LCount l | LWalk l | LForeach l | LForeachArg l _ =>
      exists xs, has_list s l xs
  | LForeachFree l =>
      exists xs, has_list s l xs /\ Forall (fun pd => freeable (ls_live s) om pd.1 pd.2) xs
  end.

(** What the answer and the new state must be. *)
Definition lpost (s : lstate) (o : lop) (a : lout) (s' : lstate) : Prop :=
  match o with
  | LInit l =>
      a = ONone /\ exists ox, ls_lists s !! l = Some ox /\
      s' = LState (ls_free s ∪ list_to_set (default [] ox).*1) (<[l := Some []]> (ls_lists s)) (ls_live s)
  | LInsertHead l p d =>
      exists xs, has_list s l xs /\ a = ONone /\ s' = take p (set_list l (Some ((p, d) :: xs)) s)
  | LInsertTail l p d =>
      exists xs, has_list s l xs /\ a = ONone /\ s' = take p (set_list l (Some (xs ++ [(p, d)])) s)
  | LRemove l p =>
      exists xs d ys, has_list s l (xs ++ (p, d) :: ys) /\ a = OWord d /\
      s' = give p (set_list l (Some (xs ++ ys)) s)
  | LConcat l1 l2 =>
      exists xs ys, has_list s l1 xs /\ has_list s l2 ys /\ a = ONone /\
      s' = set_list l2 None (set_list l1 (Some (xs ++ ys)) s)
  | LSort l _ g =>
      exists xs ys calls, has_list s l xs /\ a = OData calls /\ s' = set_list l (Some ys) s /\
      Permutation ys xs /\
      (forall c, g = (fun _ => c) -> total_preorder c -> sorted_by c ys /\ stable_by c xs ys) /\
      Z.of_nat (length calls) <=
        2 * (Z.of_nat (length xs) * Z.log2_up (Z.of_nat (length xs)) + Z.of_nat (length xs))
  | LHead l => exists xs, has_list s l xs /\ a = OWord (seq_head xs) /\ s' = s
  | LTail l => exists xs, has_list s l xs /\ a = OWord (seq_last xs) /\ s' = s
  | LEmpty l => exists xs, has_list s l xs /\ a = OBool (bool_decide (xs = [])) /\ s' = s
  | LCount l => exists xs, has_list s l xs /\ a = OWord (Z.of_nat (length xs)) /\ s' = s
  | LWalk l => exists xs, has_list s l xs /\ a = ONodes xs /\ s' = s
  | LForeach l => exists xs, has_list s l xs /\ a = OData xs.*2 /\ s' = s
  | LForeachArg l arg =>
      exists xs, has_list s l xs /\ a = OData (pd ← xs; [arg; pd.2]) /\ s' = s
  | LForeachFree l =>
      exists xs, has_list s l xs /\ a = OData xs.*2 /\
      s' = LState (ls_free s) (<[l := None]> (ls_lists s)) (free_all xs.*2 (ls_live s))
  end.

(** ** The initial memory: list variables [ls], all uninitialised, tape [t]. *)
Definition list_start (om : objmap) (K : mem) (ls : list Z) (t : Z) (live : gmap Z region) (m : mem) : Prop :=
  client_ok 4 om (HCTL :: t :: ls) m /\
  m !! t = Some (Tape []) /\ heap_live m live /\ separate K (HCTL :: t :: ls ++ objs_cells om) m /\
  forall l, l ∈ ls -> exists c, m !! l = Some c /\ wordcell c.

Definition lstate0 (om : objmap) (ls : list Z) (live : gmap Z region) : lstate :=
  LState (dom om) (list_to_map ((fun l => (l, None)) <$> ls)) live.

(** ** A well-formed list in memory, spelled out cell by cell *)

(** Consecutive nodes: [pv] is the node before, the last one has next = 0. *)
Fixpoint links (m : mem) (pv : Z) (xs : list (Z * Z)) : Prop :=
  match xs with
  | [] => True
  | (p, d) :: xs =>
      0 < p /\ p mod 8 = 0 /\ p + 32 <= 2 ^ 64 /\
      m !! f_next p = Some (W (seq_head xs)) /\
      m !! f_prev p = Some (W pv) /\
      m !! f_data p = Some (W d) /\
      (exists c, m !! f_index p = Some c /\ wordcell c) /\
      links m p xs
  end.

(** The list variable [l] holds the nodes [xs]: head pointer, links, the prev
    of the first node is the last node, nodes do not overlap. *)
Definition list_rep (m : mem) (l : Z) (xs : list (Z * Z)) : Prop :=
  m !! l = Some (W (seq_head xs)) /\ links m (seq_last xs) xs /\
  NoDup (l :: (xs.*1 ≫= node_cells 4)).

(** The cells of a list that hold links. *)
Definition link_cells (l : Z) (xs : list (Z * Z)) : list Z :=
  l :: (xs.*1 ≫= fun p => [f_next p; f_prev p]).
