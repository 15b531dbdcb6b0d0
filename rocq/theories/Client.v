(** * Clients of the library: vocabulary of the history theorems.

    This file models no function of the library.  It says what a client
    program is, which memory it starts from, and what it means for the answers
    it gets to be those of an abstract specification. *)
From Coq Require Export Sorting.Sorted.
From Verif Require Export Mem.
Global Open Scope Z_scope.

(** ** Adaptive histories

    A client is a finite program that performs operations one after the other;
    which operation comes next may depend on all the answers received so far.
    A fixed list of operations is the special case where it does not. *)
Inductive prog (op out : Type) :=
| Done
| Do (o : op) (k : out -> prog op out).
Global Arguments Done {op out}.
Global Arguments Do {op out} _ _.

Fixpoint prog_of_list {op out : Type} (l : list op) : prog op out :=
  match l with [] => Done | o :: l => Do o (fun _ => prog_of_list l) end.

Section history.
  Context {op out cst sst : Type}.

  (** The implementation: [step cs o] runs operation [o] on the container
      whose struct holds [cs]; it returns the new struct and the answer. *)
  Variable step : cst -> op -> M (cst * out).

  (** The specification: [pre s o] says that a client may perform [o] in
      abstract state [s]; [post s o a s'] says that answer [a] and new state
      [s'] are correct. *)
  Variable pre : sst -> op -> Prop.
  Variable post : sst -> op -> out -> sst -> Prop.

  (** Running a client: the transcript of operations and answers. *)
  Fixpoint run (cs : cst) (c : prog op out) : M (cst * list (op * out)) :=
    match c with
    | Done => mret (cs, [])
    | Do o k =>
        r ← step cs o;
        r' ← run r.1 (k r.2);
        mret (r'.1, (o, r.2) :: r'.2)
    end.

  (** The client respects the documented preconditions, as long as the
      answers it gets are correct. *)
  Fixpoint allowed (s : sst) (c : prog op out) : Prop :=
    match c with
    | Done => True
    | Do o k => pre s o /\ forall a s', post s o a s' -> allowed s' (k a)
    end.

  (** A transcript whose answers are all correct. *)
  Inductive correct : sst -> list (op * out) -> sst -> Prop :=
  | correct_nil s : correct s [] s
  | correct_cons s o a s' tr s'' :
      post s o a s' -> correct s' tr s'' -> correct s ((o, a) :: tr) s''.
End history.

(** ** The memory a client starts from *)

(** The addresses of the [nw] words of a node at [p]. *)
Definition node_cells (nw : nat) (p : Z) : list Z :=
  (fun i : nat => p + 8 * Z.of_nat i) <$> seq 0 nw.

(** The client's objects: each node address is mapped to the base address and
    the size in words of the object that embeds the node. *)
Definition objmap := gmap Z (Z * nat).

Definition obj_cells (o : Z * nat) : list Z := region_cells o.1 (RWords o.2).

(** All the cells of the client's objects. *)
Definition objs_cells (om : objmap) : list Z := po ← map_to_list om; obj_cells po.2.

(** The client's objects are [om]: nodes are aligned, inside the address space
    and inside their object; objects overlap neither each other nor the cells
    [others]; their words are allocated, initialised or not. *)
Definition client_ok (nw : nat) (om : objmap) (others : list Z) (m : mem) : Prop :=
  map_Forall (fun p o => 0 < p /\ p mod 8 = 0 /\ p + 8 * Z.of_nat nw <= 2 ^ 64 /\
                         node_cells nw p ⊆ obj_cells o) om /\
  NoDup (others ++ objs_cells om) /\
  forall a, a ∈ objs_cells om -> exists c, m !! a = Some c /\ wordcell c.

(** The memory outside the given cells is not changed. *)
Definition unchanged_outside (cells : list Z) (m m' : mem) : Prop :=
  forall a c, a ∉ cells -> m !! a = Some c -> m' !! a = Some c.

(** An object that [free] accepts: the base of a live block of the right size. *)
Definition freeable (live : gmap Z region) (om : objmap) (p d : Z) : Prop :=
  exists n, om !! p = Some (d, n) /\ d <> 0 /\ live !! d = Some (RWords n).

(** The live blocks of the heap. *)
Definition heap_live (m : mem) (live : gmap Z region) : Prop :=
  exists h, m !! HCTL = Some (Ctl h) /\ hc_live h = live.

(** The live blocks after freeing the blocks at [ds]. *)
Definition free_all (ds : list Z) (live : gmap Z region) : gmap Z region :=
  foldr delete live ds.

(** Comparison callback of the client: [f] may read the memory, and depend on
    the whole sequence of previous calls.  The calls are recorded on the tape
    at [t]. *)
Definition tape_cmp (t : Z) (f : list Z -> Z -> Z -> M Z) (a b : Z) : M Z := fun m =>
  match m !! t with
  | Some (Tape l) =>
      match f l a b m with
      | Ok r m' => Ok r (<[t := Tape (l ++ [a; b])]> m')
      | x => x
      end
  | _ => UB
  end.

(** What [f] reads are cells of [K], a part of the memory: called with [a] and
    [b] it returns [g a b], whatever the rest of the memory is. *)
Definition reads (K : mem) (f : Z -> Z -> M Z) (g : Z -> Z -> Z) (a b : Z) : Prop :=
  forall m, K ⊆ m -> f a b m = Ok (g a b) m.

(** The cells [K] of the client are none of the cells given. *)
Definition separate (K : mem) (cells : list Z) (m : mem) : Prop :=
  K ⊆ m /\ forall a, a ∈ cells -> K !! a = None.

(** Visiting callbacks of the client: record the data, record argument and
    data, or record the data and free the object it points to. *)
Definition visit (t : Z) (data : Z) : M unit := tape_push t data.
Definition visit_arg (t : Z) (arg data : Z) : M unit := tape_push t arg;; tape_push t data.
Definition visit_free (t : Z) (data : Z) : M unit := tape_push t data;; free data.

(** ** Orders *)

(** The contract of a comparison function in C: antisymmetric sign, transitive. *)
Definition total_preorder (c : Z → Z → Z) : Prop :=
  (∀ a b, Z.sgn (c a b) = - Z.sgn (c b a)) ∧
  (∀ a b d, c a b ≤ 0 → c b d ≤ 0 → c a d ≤ 0).

(** Sequences of (node, data) pairs sorted by their data. *)
Definition sorted_by (c : Z → Z → Z) (ys : list (Z * Z)) : Prop :=
  StronglySorted (λ x y, c x.2 y.2 ≤ 0) ys.

(** [ys] is a rearrangement of [xs] in which, for every [z], the elements that
    compare equal to [z] appear in the same order as in [xs]. *)
Definition stable_by (c : Z → Z → Z) (xs ys : list (Z * Z)) : Prop :=
  ∀ z, filter (λ x, c x.2 z = 0) ys = filter (λ x, c x.2 z = 0) xs.

(** ** Heap blocks *)
(** Total size of some heap blocks *)
Definition heap_bytes (bs : gmap Z region) : Z :=
  map_fold (fun _ r acc => region_bytes r + acc) 0 bs.

(** The addresses of the cells of some heap blocks *)
Definition blocks_cells (bs : gmap Z region) : list Z := ar ← map_to_list bs; region_cells ar.1 ar.2.

(** ** Any callback *)
(** Call [func] with every datum of the list, in order. *)
Fixpoint each (func : Z -> M unit) (l : list Z) : M unit :=
  match l with [] => mret tt | d :: l => func d;; each func l end.

(** The words of the nodes of [xs] are the same in both memories. *)
Definition same_nodes (xs : list (Z * Z)) (m m' : mem) : Prop :=
  forall p d a, (p, d) ∈ xs -> a ∈ node_cells 4 p -> m' !! a = m !! a.

(** The callback leaves alone the nodes that have not been visited yet; what it
    does to the others, that of the object it is called with included, is free. *)
Definition spares_unvisited (func : Z -> M unit) (xs : list (Z * Z)) (m : mem) : Prop :=
  forall dn x more m1 m2, xs = dn ++ x :: more -> same_nodes (x :: more) m m1 ->
  func x.2 m1 = Ok tt m2 -> same_nodes more m m2.
