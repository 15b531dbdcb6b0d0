(** * What the library asks from malloc: vocabulary of the statements. *)
From Verif Require Export TableSpec ArraySpec AllocSpec TrieSpec.
Global Open Scope Z_scope.

(** The code of the client does not run out of memory itself. *)
Definition asks_nothing {A} (c : M A) : Prop := forall m n, c m <> Env n.

(** Every operation that the client performs satisfies [P]. *)
Fixpoint every {op out} (P : op -> Prop) (c : prog op out) : Prop :=
  match c with Done => True | Do o k => P o /\ forall a, every P (k a) end.

(** Preconditions of a client of a hashtable whose comparisons do not allocate
    and that creates tables of at most [size] buckets. *)
Definition trequest (size : Z) (om : objmap) (K : mem) (s : tstate) (o : top) : Prop :=
  tpre om K s o /\
  match o with
  | TInit n => n <= size
  | TRemove f _ _ _ | TSearch f _ _ _ => forall a b, asks_nothing (f a b)
  | _ => True
  end.

(** When malloc refuses a request in the middle of a history of such a client,
    the request is of at most [bound size objects] bytes.  As the heap of the
    initial memory may refuse any request, this bounds all of them. *)
Definition table_requests (T : table) (bound : Z -> Z -> Z) : Prop :=
  forall om K t live m fuel size' c n,
    table_start om K t live m -> (size om <= fuel)%nat ->
    allowed (trequest size' om K) tpost (tstate0 om live) c ->
    run (tstep T fuel t) None c m = Env n -> n <= bound size' (Z.of_nat (size om)).

(** Preconditions of a client of an array that grows to at most [size] elements
    of at most [bytes] bytes. *)
Definition arequest (T : arrays) (size bytes : Z) (s : astate) (o : aop) : Prop :=
  apre T s o /\
  match o with
  | AInit k => k <= bytes
  | AGrow n => n <= size
  | AInsert _ => forall k es, as_arr s = Some (k, es) -> Z.of_nat (length es) < size
  | _ => True
  end.
Definition array_requests (T : arrays) (bound : Z -> Z -> Z) : Prop :=
  forall live m size bytes c n,
    heap_live m live -> allowed (arequest T size bytes) (apost T) (astate0 live) c ->
    run (astep T) None c m = Env n -> n <= bound size bytes.

(** The segments of the allocators of the client have at most [b] bytes. *)
Definition prequest (b : Z) (o : pop) : Prop :=
  match o with
  | PInit bs al => 0 <= bs /\ 8 + real_align al + real_size bs al < 2 ^ 64 /\
      segment_size (real_size bs al) (real_align al) <= b
  | _ => True
  end.
Definition xrequest (b : Z) (o : xop) : Prop :=
  match o with
  | XInit bs al => 0 <= bs /\ 8 + real_align al + real_size bs al < 2 ^ 64 /\
      segment_size (real_size bs al) (real_align al) <= b
  | _ => True
  end.
