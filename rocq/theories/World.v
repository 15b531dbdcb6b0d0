(** * Specification of several containers used together.

    The other specifications take one container, and a client whose objects
    are given once and for all.  Here any number of containers of any kind
    share one heap, and the client allocates, reads, writes and frees memory
    between their operations.  Nothing new of the library is modelled: the
    code run for each operation is that of the other specifications. *)
From Verif Require Import ListSpec TableSpec TreeSpec InpSpec AllocSpec.
Global Open Scope Z_scope.

(** ** The memory of the client *)
Record cmem := CMem {
  cm_words : gmap Z (option Z);     (* the words it may use; [None]: contents not known *)
  cm_blocks : gmap Z region }.      (* its live heap blocks *)

(** The words whose contents are known, as a piece of memory. *)
Definition known (ws : gmap Z (option Z)) : mem := omap (fun v => W <$> v) ws.
(** The words that are not in [l]. *)
Definition without (l : list Z) (ws : gmap Z (option Z)) : gmap Z (option Z) :=
  filter (fun av => av.1 ∉ l) ws.
(** The words of [l], contents not known. *)
Definition unknown (l : list Z) : gmap Z (option Z) := list_to_map ((fun a => (a, None)) <$> l).

(** ** Parts of a world

    A part is anything that a client can operate on.  Its specification
    relates its own abstract state and the memory of the client. *)
Record part := Part {
  p_op : Type;
  p_out : Type;
  p_cst : Type;
  p_sst : Type;
  p_step : p_cst -> p_op -> M (p_cst * p_out);
  p_pre : cmem -> p_sst -> p_op -> Prop;
  p_post : cmem -> p_sst -> p_op -> p_out -> cmem -> p_sst -> Prop;
  p_cst0 : p_cst;
  p_sst0 : p_sst;
  p_vars : list Z;             (* the cells of its variables *)
  p_start : mem -> Prop;       (* what they hold at the beginning *)
  p_idle : p_sst -> Prop }.    (* it holds no heap block *)

(** *** The heap and the words of the client itself *)
Inductive mop :=
| MMalloc (n : nat)      (* malloc(8 * n) *)
| MFree (a : Z)          (* free(a) *)
| MRead (a : Z)          (* read the word at a *)
| MWrite (a v : Z).      (* write the word at a *)

Inductive mout := MNone | MWord (z : Z).

Definition mstep (_ : unit) (o : mop) : M (unit * mout) :=
  a ← match o with
      | MMalloc n => p ← malloc (8 * Z.of_nat n); mret (MWord p)
      | MFree a => free a;; mret MNone
      | MRead a => v ← load a; mret (MWord v)
      | MWrite a v => store a v;; mret MNone
      end;
  mret (tt, a).

Definition mpre (c : cmem) (_ : unit) (o : mop) : Prop :=
  match o with
  | MMalloc _ => True
  | MFree a => a <> 0 /\ exists n, cm_blocks c !! a = Some (RWords n) /\
      forall k, k ∈ region_cells a (RWords n) -> is_Some (cm_words c !! k)
  | MRead a => exists v, cm_words c !! a = Some (Some v)
  | MWrite a _ => is_Some (cm_words c !! a)
  end.

(** A new block is aligned, and overlaps neither the words nor the blocks of
    the client. *)
Definition mpost (c : cmem) (_ : unit) (o : mop) (a : mout) (c' : cmem) (_ : unit) : Prop :=
  match o with
  | MMalloc n =>
      exists p, a = MWord p /\ 0 < p /\ p mod 16 = 0 /\ p + 8 * Z.of_nat n < 2 ^ 64 /\
      cm_blocks c !! p = None /\
      map_Forall (fun b r => apart p (8 * Z.of_nat n) b (region_bytes r)) (cm_blocks c) /\
      (forall k, k ∈ region_cells p (RWords n) -> cm_words c !! k = None) /\
      c' = CMem (unknown (region_cells p (RWords n)) ∪ cm_words c) (<[p := RWords n]> (cm_blocks c))
  | MFree p =>
      exists n, cm_blocks c !! p = Some (RWords n) /\ a = MNone /\
      c' = CMem (without (region_cells p (RWords n)) (cm_words c)) (delete p (cm_blocks c))
  | MRead p => exists v, cm_words c !! p = Some (Some v) /\ a = MWord v /\ c' = c
  | MWrite p v => a = MNone /\ c' = CMem (<[p := Some v]> (cm_words c)) (cm_blocks c)
  end.

Definition memory : part :=
  Part mop mout unit unit mstep mpre mpost tt tt [] (fun _ => True) (fun _ => True).

(** *** Two parts together: an operation of one leaves the other as it is. *)
Definition both_step (A B : part) (cs : p_cst A * p_cst B) (o : p_op A + p_op B)
    : M ((p_cst A * p_cst B) * (p_out A + p_out B)) :=
  match o with
  | inl o => r ← p_step A cs.1 o; mret ((r.1, cs.2), inl r.2)
  | inr o => r ← p_step B cs.2 o; mret ((cs.1, r.1), inr r.2)
  end.
Definition both_pre (A B : part) (c : cmem) (s : p_sst A * p_sst B) (o : p_op A + p_op B) : Prop :=
  match o with inl o => p_pre A c s.1 o | inr o => p_pre B c s.2 o end.
Definition both_post (A B : part) (c : cmem) (s : p_sst A * p_sst B) (o : p_op A + p_op B)
    (a : p_out A + p_out B) (c' : cmem) (s' : p_sst A * p_sst B) : Prop :=
  match o, a with
  | inl o, inl a => p_post A c s.1 o a c' s'.1 /\ s'.2 = s.2
  | inr o, inr a => p_post B c s.2 o a c' s'.2 /\ s'.1 = s.1
  | _, _ => False
  end.
Definition both (A B : part) : part :=
  Part (p_op A + p_op B) (p_out A + p_out B) (p_cst A * p_cst B) (p_sst A * p_sst B)
    (both_step A B) (both_pre A B) (both_post A B) (p_cst0 A, p_cst0 B) (p_sst0 A, p_sst0 B)
    (p_vars A ++ p_vars B) (fun m => p_start A m /\ p_start B m)
    (fun s => p_idle A s.1 /\ p_idle B s.2).

(** *** A container

    [k_pre] and [k_post] are those of its own specification, where the state
    contains the client's nodes that are not in the container and the heap
    blocks of the client: [k_with] replaces them. *)
Record kind := Kind {
  k_nw : nat;                                     (* words of a node *)
  k_op : Type;
  k_out : Type;
  k_cst : Type;
  k_sst : Type;
  k_step : k_cst -> k_op -> M (k_cst * k_out);
  k_node : k_op -> option Z;                      (* the node handed to the operation *)
  k_elems : k_sst -> list (Z * Z);                (* the nodes in the container, and their data *)
  k_freed : k_sst -> k_op -> list (Z * Z);        (* those whose data the operation frees *)
  k_free : k_sst -> gset Z;
  k_live : k_sst -> gmap Z region;
  k_with : gset Z -> gmap Z region -> k_sst -> k_sst;
  k_pre : objmap -> mem -> k_sst -> k_op -> Prop;
  k_post : k_sst -> k_op -> k_out -> k_sst -> Prop;
  k_cst0 : k_cst;
  k_sst0 : k_sst;
  k_vars : list Z;
  k_start : mem -> Prop;
  k_idle : k_sst -> Prop }.

Section container.
  Variable fuel : nat.
  (** Memory that never changes: the callbacks may read it at any time. *)
  Variable K0 : mem.
  Variable k : kind.

  Definition handed (o : k_op k) : list Z := match k_node k o with Some p => [p] | None => [] end.

  (** The block that is freed with element [x]. *)
  Definition block_of (c : cmem) (x : Z * Z) : Z * nat :=
    (x.2, match cm_blocks c !! x.2 with Some (RWords n) => n | _ => 0%nat end).

  (** During an operation the objects of the container are the nodes alone,
      except that the elements to be freed are whole blocks. *)
  Definition objects (c : cmem) (s : k_sst k) (o : k_op k) : objmap :=
    list_to_map ((fun x => (x.1, block_of c x)) <$> k_freed k s o) ∪
    list_to_map ((fun p => (p, (p, k_nw k))) <$> handed o ++ (k_elems k s).*1).

  (** The words of the client that an operation uses: the node handed over,
      and the words around the nodes of the blocks to be freed. *)
  Definition used (c : cmem) (s : k_sst k) (o : k_op k) : list Z :=
    (handed o ≫= node_cells (k_nw k)) ++
    (k_freed k s o ≫= fun x => filter (fun a => a ∉ node_cells (k_nw k) x.1) (obj_cells (block_of c x))).

  (** What the client may do: the node handed over is aligned, and inside the
      address space; a block to be freed contains the node, and the blocks do
      not overlap; all the words used are the client's.  The callbacks read
      the other words of the client. *)
  Definition container_pre (c : cmem) (s : k_sst k) (o : k_op k) : Prop :=
    (forall p, p ∈ handed o -> 0 < p /\ p mod 8 = 0 /\ p + 8 * Z.of_nat (k_nw k) <= 2 ^ 64) /\
    (forall x, x ∈ k_freed k s o -> node_cells (k_nw k) x.1 ⊆ obj_cells (block_of c x)) /\
    NoDup (k_freed k s o ≫= fun x => obj_cells (block_of c x)) /\
    (forall a, a ∈ used c s o -> is_Some (cm_words c !! a)) /\
    (length (k_elems k s) + 20 <= fuel)%nat /\
    k_pre k (objects c s o) (K0 ∪ known (without (used c s o) (cm_words c)))
      (k_with k (list_to_set (handed o)) (cm_blocks c) s) o.

  (** The nodes that are not in the container after the operation are back in
      the memory of the client, contents not known. *)
  Definition container_post (c : cmem) (s : k_sst k) (o : k_op k) (a : k_out k) (c' : cmem) (s' : k_sst k) : Prop :=
    exists s1, k_post k (k_with k (list_to_set (handed o)) (cm_blocks c) s) o a s1 /\
    s' = k_with k ∅ ∅ s1 /\
    c' = CMem (unknown (elements (k_free k s1) ≫= node_cells (k_nw k)) ∪ without (used c s o) (cm_words c))
           (k_live k s1).

  Definition container_part : part :=
    Part (k_op k) (k_out k) (k_cst k) (k_sst k) (k_step k) container_pre container_post
      (k_cst0 k) (k_sst0 k) (k_vars k) (k_start k) (k_idle k).
End container.

(** *** The kinds of containers *)

(** Any number of lists, whose variables are [ls]; [t] is the tape. *)
Definition list_kind (fuel : nat) (ls : list Z) (t : Z) : kind := {|
  k_nw := 4; k_op := lop; k_out := lout; k_cst := unit; k_sst := lstate;
  k_step := lstep fuel t;
  k_node o := match o with LInsertHead _ p _ | LInsertTail _ p _ => Some p | _ => None end;
  k_elems s := map_to_list (ls_lists s) ≫= (fun lx => default [] lx.2);
  k_freed s o := match o with
    | LForeachFree l => match ls_lists s !! l with Some (Some xs) => xs | _ => [] end
    | _ => [] end;
  k_free := ls_free; k_live := ls_live;
  k_with f l s := LState f (ls_lists s) l;
  k_pre := lpre; k_post := lpost;
  k_cst0 := tt; k_sst0 := lstate0 ∅ ls ∅;
  k_vars := t :: ls;
  k_start m := m !! t = Some (Tape []) /\ forall l, l ∈ ls -> exists c, m !! l = Some c /\ wordcell c;
  k_idle _ := True |}.

(** A hashtable *)
Definition table_kind (T : table) (fuel : nat) (t : Z) : kind := {|
  k_nw := 4; k_op := top; k_out := tout; k_cst := option (tb_st T); k_sst := tstate;
  k_step := tstep T fuel t;
  k_node o := match o with TInsert p _ _ => Some p | _ => None end;
  k_elems s := match ts_tab s with TabEs es => (fun e => (en_p e, en_d e)) <$> es | _ => [] end;
  k_freed s o := match o, ts_tab s with
    | TForeachFree, TabEs es => (fun e => (en_p e, en_d e)) <$> es
    | _, _ => [] end;
  k_free := TableSpec.ts_free; k_live := TableSpec.ts_live;
  k_with f l s := TState f (ts_tab s) l;
  k_pre := tpre; k_post := tpost;
  k_cst0 := None; k_sst0 := tstate0 ∅ ∅;
  k_vars := [t]; k_start m := m !! t = Some (Tape []);
  k_idle s := ts_tab s = TabNone |}.

(** A tree.  Its comparison may read the memory that the client has when it is
    called: the state also contains the function given to init. *)
Definition tree_args (o : trop) : list Z :=
  match o with TrInsert _ d | TrRemove d | TrSearch d => [d] | _ => [] end.
Definition tree_elems (s : trstate) : list (Z * Z) :=
  match ts_tree s with Some (_, xs) => xs | None => [] end.
Definition tree_data (s : trstate) (o : trop) (z : Z) : Prop := z ∈ tree_args o ++ (tree_elems s).*2.

Definition tree_pre (om : objmap) (K : mem) (s : trstate * (Z -> Z -> M Z)) (o : trop) : Prop :=
  match o with
  | TrInit _ c => total_preorder c
  | _ => trpre om K (tree_data s.1 o) s.1 o
  end /\
  (compares o -> forall c xs, ts_tree s.1 = Some (c, xs) ->
     forall a b, tree_data s.1 o a -> tree_data s.1 o b -> reads K s.2 c a b).
Definition tree_post (s : trstate * (Z -> Z -> M Z)) (o : trop) (a : trout) (s' : trstate * (Z -> Z -> M Z)) : Prop :=
  trpost s.1 o a s'.1 /\ s'.2 = match o with TrInit f _ => f | _ => s.2 end.

Definition tree_kind (fuel : nat) (t : Z) : kind := {|
  k_nw := 4; k_op := trop; k_out := trout; k_cst := option treeS; k_sst := trstate * (Z -> Z -> M Z);
  k_step := trstep fuel t;
  k_node o := match o with TrInsert p _ => Some p | _ => None end;
  k_elems s := tree_elems s.1;
  k_freed s o := match o with TrForeachFree => tree_elems s.1 | _ => [] end;
  k_free s := TreeSpec.ts_free s.1; k_live s := TreeSpec.ts_live s.1;
  k_with f l s := (TrState f (ts_tree s.1) l, s.2);
  k_pre := tree_pre; k_post := tree_post;
  k_cst0 := None; k_sst0 := (trstate0 ∅ ∅, fun _ _ => ub);
  k_vars := [t]; k_start m := m !! t = Some (Tape []);
  k_idle _ := True |}.

(** A trie with its allocator; the bucket array is at [tb]. *)
Definition knode (o : kop) : option Z := match o with KInsert p _ _ => Some p | _ => None end.
Definition trie_kind (fuel : nat) (tb : Z) : kind := {|
  k_nw := 4; k_op := xop; k_out := kout; k_cst := option (trie * allocator); k_sst := xstate;
  k_step := xstep fuel tb;
  k_node o := match o with XOp o => knode o | _ => None end;
  k_elems s := (fun e => (te_p e, te_d e)) <$> ks_es (xs_k s);
  k_freed _ _ := [];
  k_free s := ks_free (xs_k s); k_live := xs_live;
  k_with f l s := XState (KState f (ks_es (xs_k s))) (xs_cfg s) l;
  k_pre _ _ := xpre; k_post := xpost;
  k_cst0 := None; k_sst0 := xstate0 ∅ ∅;
  k_vars := node_cells 32 tb;
  k_start m := forall a, a ∈ node_cells 32 tb -> exists c, m !! a = Some c /\ wordcell c;
  k_idle s := xs_cfg s = None |}.

(** An inplace trie; it does not use the heap. *)
Definition inp_kind (fuel : nat) (tb : Z) : kind := {|
  k_nw := 8; k_op := iop; k_out := kout; k_cst := option inptrie; k_sst := istate * gmap Z region;
  k_step := istep fuel tb;
  k_node o := match o with IOp o => knode o | _ => None end;
  k_elems s := (fun e => (te_p e, te_d e)) <$> ks_es (is_k s.1);
  k_freed _ _ := [];
  k_free s := ks_free (is_k s.1); k_live s := s.2;
  k_with f l s := (IState (KState f (ks_es (is_k s.1))) (is_init s.1), l);
  k_pre _ _ s o := ipre s.1 o;
  k_post s o a s' := ipost s.1 o a s'.1 /\ s'.2 = s.2;
  k_cst0 := None; k_sst0 := (istate0 ∅, ∅);
  k_vars := node_cells 64 tb;
  k_start m := forall a, a ∈ node_cells 64 tb -> exists c, m !! a = Some c /\ wordcell c;
  k_idle _ := True |}.

(** An array; it has no nodes. *)
Definition array_kind (T : arrays) : kind := {|
  k_nw := 4; k_op := aop; k_out := aout; k_cst := option (ay_st T); k_sst := astate;
  k_step := astep T;
  k_node _ := None; k_elems _ := []; k_freed _ _ := [];
  k_free _ := ∅; k_live := as_live;
  k_with _ l s := AState (as_arr s) (as_own s) l;
  k_pre _ _ := apre T; k_post := apost T;
  k_cst0 := None; k_sst0 := astate0 ∅;
  k_vars := []; k_start _ := True;
  k_idle s := as_arr s = None |}.

(** *** An allocator

    The blocks that it hands out become memory of the client, until they are
    freed or the allocator is done.  The operations that read and write blocks
    are not used here: the client does it itself. *)
Record qstate := QState {
  qs_cfg : option (Z * Z);        (* size and alignment of the blocks *)
  qs_blocks : gset Z;             (* allocated blocks *)
  qs_freed : list Z;              (* blocks freed and not allocated again, last freed first *)
  qs_own : gmap Z region }.       (* live heap blocks of the allocator *)

Definition pool_cells (bs p : Z) : list Z := region_cells p (RWords (Z.to_nat (bs / 8))).

Definition pool_pre (c : cmem) (s : qstate) (o : pop) : Prop :=
  match o with
  | PInit bs al => ppre (PState None ∅ [] (qs_own s) ∅) (PInit bs al)
  | PAlloc | PUsage => is_Some (qs_cfg s)
  | PFree p => exists bs al, qs_cfg s = Some (bs, al) /\ p ∈ qs_blocks s /\
      forall k, k ∈ pool_cells bs p -> is_Some (cm_words c !! k)
  | PDone => exists bs al, qs_cfg s = Some (bs, al) /\
      forall p k, p ∈ qs_blocks s -> k ∈ pool_cells bs p -> is_Some (cm_words c !! k)
  | PRead _ | PWrite _ _ => False
  end.

(** A new block is aligned, and overlaps neither the words of the client nor
    the other blocks of the allocator; a segment is requested exactly when all
    the blocks are in use. *)
Definition pool_post (c : cmem) (s : qstate) (o : pop) (a : pout) (c' : cmem) (s' : qstate) : Prop :=
  match o with
  | PInit bs al =>
      a = PONone /\ c' = c /\ s' = QState (Some (real_size bs al, real_align al)) ∅ [] ∅
  | PAlloc =>
      exists bs al p own, qs_cfg s = Some (bs, al) /\ a = POWord p /\ p ∉ qs_blocks s /\
      0 < p /\ p mod al = 0 /\ p + bs < 2 ^ 64 /\
      (forall q, q ∈ qs_blocks s -> apart p bs q bs) /\
      (forall k, k ∈ pool_cells bs p -> cm_words c !! k = None) /\
      (forall q, head (qs_freed s) = Some q -> p = q /\ own = qs_own s) /\
      (own = qs_own s /\ Z.of_nat (size (qs_blocks s)) < total_blocks bs al (qs_own s) \/
       Z.of_nat (size (qs_blocks s)) = total_blocks bs al (qs_own s) /\
       exists b, qs_own s !! b = None /\
        own = <[b := RWords (Z.to_nat (segment_size bs al / 8))]> (qs_own s)) /\
      c' = CMem (unknown (pool_cells bs p) ∪ cm_words c) (cm_blocks c) /\
      s' = QState (qs_cfg s) ({[p]} ∪ qs_blocks s) (tail (qs_freed s)) own
  | PFree p =>
      exists bs al, qs_cfg s = Some (bs, al) /\ a = PONone /\
      c' = CMem (without (pool_cells bs p) (cm_words c)) (cm_blocks c) /\
      s' = QState (qs_cfg s) (qs_blocks s ∖ {[p]}) (p :: qs_freed s) (qs_own s)
  | PUsage =>
      exists bs al, qs_cfg s = Some (bs, al) /\ a = POWord (Z.of_nat (size (qs_blocks s)) * bs) /\
      c' = c /\ s' = s
  | PDone =>
      exists bs al, qs_cfg s = Some (bs, al) /\ a = PONone /\
      c' = CMem (without (elements (qs_blocks s) ≫= pool_cells bs) (cm_words c)) (cm_blocks c) /\
      s' = QState (qs_cfg s) ∅ [] ∅
  | PRead _ | PWrite _ _ => False
  end.

Definition pool_part : part :=
  Part pop pout (option allocator) qstate pstep pool_pre pool_post None (QState None ∅ [] ∅)
    [] (fun _ => True) (fun s => qs_own s = ∅).

(** ** Worlds *)
Inductive container :=
| CLists (ls : list Z) (t : Z)
| CHashtable (t : Z)
| CHashdyn (t : Z)
| CHashlin (t : Z)
| CTree (t : Z)
| CTrie (tb : Z)
| CInplace (tb : Z)
| CArray
| CArrayof
| CArrayblk
| CArrayblkof
| CAllocator.

Definition part_of (fuel : nat) (K0 : mem) (c : container) : part :=
  match c with
  | CLists ls t => container_part fuel K0 (list_kind fuel ls t)
  | CHashtable t => container_part fuel K0 (table_kind hashtable_table fuel t)
  | CHashdyn t => container_part fuel K0 (table_kind hashdyn_table fuel t)
  | CHashlin t => container_part fuel K0 (table_kind hashlin_table fuel t)
  | CTree t => container_part fuel K0 (tree_kind fuel t)
  | CTrie tb => container_part fuel K0 (trie_kind fuel tb)
  | CInplace tb => container_part fuel K0 (inp_kind fuel tb)
  | CArray => container_part fuel K0 (array_kind array_a)
  | CArrayof => container_part fuel K0 (array_kind arrayof_a)
  | CArrayblk => container_part fuel K0 (array_kind arrayblk_a)
  | CArrayblkof => container_part fuel K0 (array_kind arrayblkof_a)
  | CAllocator => pool_part
  end.

(** The containers [cs] and the memory of the client. *)
Fixpoint world (fuel : nat) (K0 : mem) (cs : list container) : part :=
  match cs with
  | [] => memory
  | c :: cs => both (part_of fuel K0 c) (world fuel K0 cs)
  end.

(** The abstract state of a world contains the memory of the client. *)
Definition wpre (P : part) (s : cmem * p_sst P) (o : p_op P) : Prop := p_pre P s.1 s.2 o.
Definition wpost (P : part) (s : cmem * p_sst P) (o : p_op P) (a : p_out P) (s' : cmem * p_sst P) : Prop :=
  p_post P s.1 s.2 o a s'.1 s'.2.

(** The memory holds the words of the client. *)
Definition words_at (m : mem) (ws : gmap Z (option Z)) : Prop :=
  forall a v, ws !! a = Some v ->
  exists c, m !! a = Some c /\ wordcell c /\ forall z, v = Some z -> c = W z.

(** The cells of a world: the heap control, the variables of the containers
    and the words of the client. *)
Definition world_cells (P : part) (c : cmem) : list Z :=
  HCTL :: p_vars P ++ elements (dom (cm_words c)).

Definition world_start (P : part) (K0 : mem) (c : cmem) (m : mem) : Prop :=
  NoDup (world_cells P c) /\ p_start P m /\ words_at m (cm_words c) /\
  heap_live m (cm_blocks c) /\ separate K0 (world_cells P c) m.

(** The end of a run: the answers are correct, the words of the client hold
    what they should, and the live heap blocks are those of the client and
    [int], of the containers; there is none of the latter if all containers
    are idle. *)
Definition world_end (P : part) (c : cmem) (tr : list (p_op P * p_out P)) (m' : mem) : Prop :=
  exists c' s' int, correct (wpost P) (c, p_sst0 P) tr (c', s') /\ words_at m' (cm_words c') /\
  heap_live m' (int ∪ cm_blocks c') /\ int ##ₘ cm_blocks c' /\
  (p_idle P s' -> int = ∅).

Definition after_any_world_history (Q : forall fuel K0 cs, cmem ->
    p_cst (world fuel K0 cs) -> list (p_op (world fuel K0 cs) * p_out (world fuel K0 cs)) -> mem -> mem -> Prop) : Prop :=
  forall fuel K0 cs c m prog,
    world_start (world fuel K0 cs) K0 c m ->
    allowed (wpre (world fuel K0 cs)) (wpost (world fuel K0 cs)) (c, p_sst0 (world fuel K0 cs)) prog ->
    safe (run (p_step (world fuel K0 cs)) (p_cst0 (world fuel K0 cs)) prog m)
      (fun r m' => Q fuel K0 cs c r.1 r.2 m m').

(** ** Vocabulary of the consequences *)

(** The specification of a container alone, whatever the other parts of the
    world have done to the memory of the client in the meantime. *)
Definition own_post (P : part) (s : p_sst P) (o : p_op P) (a : p_out P) (s' : p_sst P) : Prop :=
  exists c c', p_post P c s o a c' s'.

(** The operations of one container, with their answers. *)
Fixpoint own_event (fuel : nat) (K0 : mem) (cs1 : list container) (c : container) (cs2 : list container)
    : p_op (world fuel K0 (cs1 ++ c :: cs2)) -> p_out (world fuel K0 (cs1 ++ c :: cs2)) ->
      list (p_op (part_of fuel K0 c) * p_out (part_of fuel K0 c)) :=
  match cs1 with
  | [] => fun o a => match o, a with inl o, inl a => [(o, a)] | _, _ => [] end
  | _ :: cs1 => fun o a => match o, a with inr o, inr a => own_event fuel K0 cs1 c cs2 o a | _, _ => [] end
  end.
Definition own_events (fuel : nat) (K0 : mem) (cs1 : list container) (c : container) (cs2 : list container)
    (tr : list (p_op (world fuel K0 (cs1 ++ c :: cs2)) * p_out (world fuel K0 (cs1 ++ c :: cs2))))
    : list (p_op (part_of fuel K0 c) * p_out (part_of fuel K0 c)) :=
  oa ← tr; own_event fuel K0 cs1 c cs2 oa.1 oa.2.

(** The operations of the client itself, with their answers. *)
Fixpoint memory_event (fuel : nat) (K0 : mem) (cs : list container)
    : p_op (world fuel K0 cs) -> p_out (world fuel K0 cs) -> list (mop * mout) :=
  match cs with
  | [] => fun o a => [(o, a)]
  | _ :: cs => fun o a => match o, a with inr o, inr a => memory_event fuel K0 cs o a | _, _ => [] end
  end.
Definition memory_events (fuel : nat) (K0 : mem) (cs : list container)
    (tr : list (p_op (world fuel K0 cs) * p_out (world fuel K0 cs))) : list (mop * mout) :=
  oa ← tr; memory_event fuel K0 cs oa.1 oa.2.

(** What the client last wrote at [a]; [v] is what was there before. *)
Fixpoint last_write (a : Z) (v : option Z) (l : list (mop * mout)) : option Z :=
  match l with
  | [] => v
  | (MWrite b z, _) :: l => last_write a (if decide (a = b) then Some z else v) l
  | _ :: l => last_write a v l
  end.
