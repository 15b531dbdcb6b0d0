(** * Runs that do not run out of memory: vocabulary of the statements. *)
From Verif Require Export RequestSpec.
Global Open Scope Z_scope.

(** All that is in the memory is below [base], and malloc hands out the
    addresses [base], [base + stride], [base + 2 * stride] and so on. *)
Definition room (base stride : Z) (m : mem) : Prop :=
  0 < base /\ base mod 16 = 0 /\ 0 < stride /\ stride mod 16 = 0 /\
  exists h, m !! HCTL = Some (Ctl h) /\
    (forall i, hc_oracle h (hc_next h + i)%nat = base + stride * Z.of_nat i) /\
    map_Forall (fun k (_ : cell) => k < base) m /\
    map_Forall (fun b r => b < base /\ b + region_bytes r <= base) (hc_live h).

(** The client performs operations that cost at most [n] in all. *)
Fixpoint costs {op out} (cost : op -> Z) (n : Z) (c : prog op out) : Prop :=
  match c with Done => 0 <= n | Do o k => cost o <= n /\ forall a, costs cost (n - cost o) (k a) end.

(** How many blocks an operation may ask from malloc. *)
Definition tcost (o : top) : Z :=
  match o with TInit _ | TInsert _ _ _ | TRemove _ _ _ _ | TRemoveExisting _ => 1 | _ => 0 end.
(** [blocks n]: blocks of elements of an array that grows to [n] elements; the
    vector of segments has 64 entries. *)
Definition acost (blocks : Z -> Z) (o : aop) : Z :=
  match o with AInit _ => 1 | AGrow n => 64 + blocks n | AInsert _ => 64 + blocks 1 | _ => 0 end.
Definition pcost (o : pop) : Z := match o with PAlloc => 1 | _ => 0 end.
Definition xcost (o : xop) : Z := match o with XOp (KInsert _ _ _) => 11 | XAlloc => 1 | _ => 0 end.

(** Preconditions of a client of a hashtable, whose comparisons moreover do not
    change the memory. *)
Definition troom (size : Z) (om : objmap) (K : mem) (s : tstate) (o : top) : Prop :=
  trequest size om K s o /\
  match o with
  | TRemove f _ _ _ | TSearch f _ _ _ => forall a b m r m', f a b m = Ok r m' -> m' = m
  | _ => True
  end.

(** If no request is larger than [stride] and the address space has room for as
    many blocks as the operations may need, the run completes. *)
Definition table_completes (T : table) (bound : Z -> Z -> Z) : Prop :=
  forall om K t live m fuel size' c base stride n,
    table_start om K t live m -> (size om <= fuel)%nat ->
    allowed (troom size' om K) tpost (tstate0 om live) c ->
    room base stride m -> bound size' (Z.of_nat (size om)) <= stride ->
    costs tcost n c -> base + stride * n < 2 ^ 64 ->
    exists r m', run (tstep T fuel t) None c m = Ok r m'.
Definition array_completes (T : arrays) (bound : Z -> Z -> Z) (blocks : Z -> Z) : Prop :=
  forall live m size bytes c base stride n,
    heap_live m live -> allowed (arequest T size bytes) (apost T) (astate0 live) c ->
    room base stride m -> bound size bytes <= stride ->
    costs (acost blocks) n c -> base + stride * n < 2 ^ 64 ->
    exists r m', run (astep T) None c m = Ok r m'.
Definition allocator_completes : Prop :=
  forall live m c base stride n,
    heap_live m live -> allowed ppre ppost (pstate0 live) c -> every (prequest stride) c ->
    room base stride m -> costs pcost n c -> base + stride * n < 2 ^ 64 ->
    exists r m', run pstep None c m = Ok r m'.
Definition trie_completes : Prop :=
  forall om tb live m fuel c base stride n,
    trie_start om tb live m -> (10 <= fuel)%nat -> allowed xpre xpost (xstate0 om live) c ->
    every (xrequest stride) c ->
    room base stride m -> costs xcost n c -> base + stride * n < 2 ^ 64 ->
    exists r m', run (xstep fuel tb) None c m = Ok r m'.
