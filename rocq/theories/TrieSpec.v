(** * Specification of the trie; the first part is also that of the inplace
    trie. *)
From Verif Require Export Client AllocSpec Trie.
Global Open Scope Z_scope.

(** ** What both tries do *)

(** An element: node, data, key. *)
Record tent := TEnt { te_p : Z; te_d : Z; te_k : Z }.

Inductive kop :=
| KInsert (p d k : Z)        (* insert(trie, p, d, k) *)
| KRemove (k : Z)            (* remove(trie, k) *)
| KRemoveExisting (p : Z)    (* remove_existing(trie, p) *)
| KSearch (k : Z)            (* search(trie, k) *)
| KBucket (k : Z)            (* follow next from bucket(trie, k), reading data *)
| KCount.                    (* count(trie) *)

Inductive kout :=
| KNone
| KWord (z : Z)
| KNodes (l : list (Z * Z)). (* nodes with their data *)

Record kstate := KState {
  ks_free : gset Z;          (* client nodes in no trie *)
  ks_es : list tent }.       (* elements, in insertion order *)

(** The elements with key [k], in insertion order. *)
Definition with_key (k : Z) (es : list tent) : list tent := filter (fun e => te_k e = k) es.

Definition kpre (s : kstate) (o : kop) : Prop :=
  match o with
  | KInsert p _ k => p ∈ ks_free s /\ 0 <= k < 2 ^ 32
  | KRemove k | KSearch k | KBucket k => 0 <= k < 2 ^ 32
  | KRemoveExisting p => p ∈ te_p <$> ks_es s
  | KCount => True
  end.

Definition kpost (s : kstate) (o : kop) (a : kout) (s' : kstate) : Prop :=
  match o with
  | KInsert p d k => a = KNone /\ s' = KState (ks_free s ∖ {[p]}) (ks_es s ++ [TEnt p d k])
  | KRemove k =>
      (* either the first element with the key is removed *)
      (exists es1 e es2, ks_es s = es1 ++ e :: es2 /\ te_k e = k /\ Forall (fun e => te_k e <> k) es1 /\
        a = KWord (te_d e) /\ s' = KState (ks_free s ∪ {[te_p e]}) (es1 ++ es2)) \/
      (* or no element has the key *)
      (Forall (fun e => te_k e <> k) (ks_es s) /\ a = KWord 0 /\ s' = s)
  | KRemoveExisting p =>
      exists es1 d k es2, ks_es s = es1 ++ TEnt p d k :: es2 /\ a = KWord d /\
      s' = KState (ks_free s ∪ {[p]}) (es1 ++ es2)
  | KSearch k =>
      a = KWord (match with_key k (ks_es s) with e :: _ => te_d e | [] => 0 end) /\ s' = s
  | KBucket k => a = KNodes ((fun e => (te_p e, te_d e)) <$> with_key k (ks_es s)) /\ s' = s
  | KCount => a = KWord (Z.of_nat (length (ks_es s))) /\ s' = s
  end.

(** The elements inserted and not removed, in insertion order, from the
    operations alone. *)
Fixpoint remove_first (k : Z) (es : list tent) : list tent :=
  match es with
  | [] => []
  | e :: es => if decide (te_k e = k) then es else e :: remove_first k es
  end.
Definition kset_step (es : list tent) (o : kop) : list tent :=
  match o with
  | KInsert p d k => es ++ [TEnt p d k]
  | KRemove k => remove_first k es
  | KRemoveExisting p => filter (fun e => te_p e <> p) es
  | _ => es
  end.

(** What an operation returns on the elements [es]. *)
Definition kanswer (es : list tent) (o : kop) : kout :=
  match o with
  | KInsert _ _ _ => KNone
  | KRemove k | KSearch k => KWord (match with_key k es with e :: _ => te_d e | [] => 0 end)
  | KRemoveExisting p => KWord (match filter (fun e => te_p e = p) es with e :: _ => te_d e | [] => 0 end)
  | KBucket k => KNodes ((fun e => (te_p e, te_d e)) <$> with_key k es)
  | KCount => KWord (Z.of_nat (length es))
  end.

(** ** The inner blocks of the trie *)

(** Prefixes of the keys [ks], without their last [b] bits, that two different
    keys share. *)
Definition clash (b : Z) (ks : gset Z) (k : Z) : Prop :=
  set_Exists (fun k' => k' <> k /\ shr k' b = shr k b) ks.
Global Instance clash_dec b ks k : Decision (clash b ks k).
Proof. unfold clash. apply _. Defined.
Definition shared (b : Z) (ks : gset Z) : gset Z :=
  set_map (fun k => shr k b) (filter (clash b ks) ks).

(** The trie needs one inner block for each level and each prefix shared at
    that level.  The first level of blocks uses bits 27 to 29, which are also
    used to select the bucket: the same prefixes as at the second level. *)
Definition level_bits : list Z := [3; 6; 9; 12; 15; 18; 21; 24; 27; 27].
Definition inner_count (ks : gset Z) : nat := sum_list ((fun b => size (shared b ks)) <$> level_bits).

Definition keys (es : list tent) : gset Z := list_to_set (te_k <$> es).

(** ** The trie *)
Inductive xop :=
| XInit (bs al : Z)      (* tommy_allocator_init(alloc, bs, al); tommy_trie_init(trie, alloc) *)
| XOp (o : kop)
| XUsage                 (* tommy_trie_memory_usage(trie) *)
| XAlloc                 (* tommy_allocator_alloc(alloc), for the client *)
| XWrite (p j v : Z)     (* write v in the j-th word of a block of the client *)
| XFree (p : Z)          (* tommy_allocator_free(alloc, p) *)
| XAllocUsage            (* tommy_allocator_memory_usage(alloc) *)
| XDone.                 (* tommy_allocator_done(alloc), which also ends the trie *)

(** The client's code for each operation on the trie with bucket array at
    [tb]; [None]: trie and allocator are not initialised.  [fuel] bounds the
    iterations of the loops of the library; the client follows next at most as
    many times as there are elements. *)
Definition xstep (fuel : nat) (tb : Z) (cs : option (trie * allocator)) (o : xop)
    : M (option (trie * allocator) * kout) :=
  match o, cs with
  | XInit bs al, _ => t ← trie_init tb; mret (Some (t, allocator_init bs al), KNone)
  | _, None => ub
  | XOp (KInsert p d k), Some (t, al) => r ← trie_insert fuel t al p d k; mret (Some r, KNone)
  | XOp (KRemove k), Some (t, al) => r ← trie_remove fuel t al k; mret (Some r.1, KWord r.2)
  | XOp (KRemoveExisting p), Some (t, al) => r ← trie_remove_existing fuel t al p; mret (Some r.1, KWord r.2)
  | XOp (KSearch k), Some (t, al) => d ← trie_search fuel t k; mret (Some (t, al), KWord d)
  | XOp (KBucket k), Some (t, al) =>
      i ← trie_bucket fuel t k; l ← list_walk (Z.to_nat (trie_count t)) i; mret (Some (t, al), KNodes l)
  | XOp KCount, Some (t, al) => mret (Some (t, al), KWord (trie_count t))
  | XUsage, Some (t, al) => mret (Some (t, al), KWord (trie_memory_usage t))
  | XAlloc, Some (t, al) => r ← allocator_alloc al; mret (Some (t, r.2), KWord r.1)
  | XWrite p j v, Some (t, al) => store (p + 8 * j) v;; mret (Some (t, al), KNone)
  | XFree p, Some (t, al) => al' ← allocator_free al p; mret (Some (t, al'), KNone)
  | XAllocUsage, Some (t, al) => mret (Some (t, al), KWord (allocator_memory_usage al))
  | XDone, Some (t, al) => allocator_done al;; mret (None, KNone)
  end.

Record xstate := XState {
  xs_k : kstate;
  xs_cfg : option (Z * gset Z);   (* size of the blocks of the allocator, and those of the client *)
  xs_live : gmap Z region }.      (* live heap blocks of the client *)

Definition xpre (s : xstate) (o : xop) : Prop :=
  match o with
  | XInit bs al =>
      xs_cfg s = None /\ 64 <= bs /\ (al < 8 \/ al mod 8 = 0) /\
      8 + real_align al + real_size bs al < 2 ^ 64 /\
      config_fits (real_size bs al) (real_align al)
  | XOp o => is_Some (xs_cfg s) /\ kpre (xs_k s) o
  | XUsage | XAlloc | XAllocUsage | XDone => is_Some (xs_cfg s)
  | XWrite p j _ => exists bs bl, xs_cfg s = Some (bs, bl) /\ p ∈ bl /\ 0 <= j < bs / 8
  | XFree p => exists bs bl, xs_cfg s = Some (bs, bl) /\ p ∈ bl
  end.

Definition xpost (s : xstate) (o : xop) (a : kout) (s' : xstate) : Prop :=
  let es := ks_es (xs_k s) in
  match o with
  | XInit bs al => a = KNone /\ s' = XState (xs_k s) (Some (real_size bs al, ∅)) (xs_live s)
  | XOp o => exists k', kpost (xs_k s) o a k' /\ s' = XState k' (xs_cfg s) (xs_live s)
  | XUsage =>
      a = KWord (32 * Z.of_nat (length es) + 64 * Z.of_nat (inner_count (keys es))) /\ s' = s
  | XAlloc =>
      exists bs bl p, xs_cfg s = Some (bs, bl) /\ a = KWord p /\ p ∉ bl /\
      s' = XState (xs_k s) (Some (bs, {[p]} ∪ bl)) (xs_live s)
  | XWrite _ _ _ => a = KNone /\ s' = s
  | XFree p =>
      exists bs bl, xs_cfg s = Some (bs, bl) /\ a = KNone /\
      s' = XState (xs_k s) (Some (bs, bl ∖ {[p]})) (xs_live s)
  | XAllocUsage =>
      exists bs bl, xs_cfg s = Some (bs, bl) /\
      a = KWord (bs * (Z.of_nat (inner_count (keys es)) + Z.of_nat (size bl))) /\ s' = s
  | XDone =>
      a = KNone /\
      s' = XState (KState (ks_free (xs_k s) ∪ list_to_set (te_p <$> es)) []) None (xs_live s)
  end.

(** The initial memory: the client's objects and the bucket array of the trie,
    whose 32 words are allocated. *)
Definition trie_start (om : objmap) (tb : Z) (live : gmap Z region) (m : mem) : Prop :=
  client_ok 4 om (HCTL :: node_cells 32 tb) m /\
  (forall a, a ∈ node_cells 32 tb -> exists c, m !! a = Some c /\ wordcell c) /\ heap_live m live.

Definition xstate0 (om : objmap) (live : gmap Z region) : xstate :=
  XState (KState (dom om) []) None live.

(** The end of a history: the answers are correct, and the counters agree with
    the elements.  [own] are the segments of the allocator. *)
Definition trie_end (om : objmap) (live : gmap Z region) (cs : option (trie * allocator))
    (tr : list (xop * kout)) (m' : mem) : Prop :=
  exists s' own, correct xpost (xstate0 om live) tr s' /\ heap_live m' (own ∪ xs_live s') /\
    own ##ₘ xs_live s' /\
    match xs_cfg s' with
    | None => cs = None /\ own = ∅
    | Some (bs, bl) => exists t al, cs = Some (t, al) /\
        tri_count t = Z.of_nat (length (ks_es (xs_k s'))) /\
        tri_node_count t = Z.of_nat (inner_count (keys (ks_es (xs_k s')))) /\
        al_count al = tri_node_count t + Z.of_nat (size bl)
    end.

(** ** Reading a transcript *)
Definition after_any_trie_history
    (Q : gmap Z region -> option (trie * allocator) -> list (xop * kout) -> mem -> Prop) : Prop :=
  forall om tb live m fuel c, trie_start om tb live m -> (10 <= fuel)%nat ->
  allowed xpre xpost (xstate0 om live) c ->
  safe (run (xstep fuel tb) None c m) (fun r m' => Q live r.1 r.2 m').

Definition xset_step (es : list tent) (o : xop) : list tent :=
  match o with XInit _ _ | XDone => [] | XOp o => kset_step es o | _ => es end.
Definition xset (ops : list xop) : list tent := foldl xset_step [] ops.

(** The number of blocks the client has allocated and not freed. *)
Definition xheld_step (n : Z) (o : xop) : Z :=
  match o with XInit _ _ | XDone => 0 | XAlloc => n + 1 | XFree _ => n - 1 | _ => n end.
Definition xheld (ops : list xop) : Z := foldl xheld_step 0 ops.
