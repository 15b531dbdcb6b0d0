(** * Specification of the hashtables: the same one for the three of them. *)
From Verif Require Export Client Bucket HashTbl HashDyn HashLin.
Global Open Scope Z_scope.

(** ** The operations of a hashtable *)
Record table := Table {
  tb_st : Type;                                           (* the struct *)
  tb_init : Z -> M tb_st;
  tb_done : tb_st -> M unit;
  tb_insert : nat -> tb_st -> Z -> Z -> Z -> M tb_st;
  tb_remove : nat -> tb_st -> (Z -> Z -> M Z) -> Z -> Z -> M (tb_st * Z);
  tb_remove_existing : nat -> tb_st -> Z -> M (tb_st * Z);
  tb_search : nat -> tb_st -> (Z -> Z -> M Z) -> Z -> Z -> M Z;
  tb_bucket : tb_st -> Z -> M Z;
  tb_count : tb_st -> Z;
  tb_foreach : nat -> tb_st -> (Z -> M unit) -> M unit;
  tb_foreach_arg : nat -> tb_st -> (Z -> Z -> M unit) -> Z -> M unit;
  tb_memory_usage : tb_st -> Z;
  tb_slot : tb_st -> Z -> Z }.      (* for the statements only: the bucket number of a hash *)

(** tommyhashtbl.h / tommyhashtbl.c *)
Definition hashtable_table : table :=
  Table hashtable hashtable_init hashtable_done (fun _ => hashtable_insert) hashtable_remove
    (fun _ => hashtable_remove_existing) hashtable_search hashtable_bucket hashtable_count
    hashtable_foreach hashtable_foreach_arg hashtable_memory_usage
    (fun st h => h mod ht_bucket_max st).

(** tommyhashdyn.h / tommyhashdyn.c; init has no size argument *)
Definition hashdyn_table : table :=
  Table hashdyn (fun _ => hashdyn_init) hashdyn_done hashdyn_insert hashdyn_remove
    hashdyn_remove_existing hashdyn_search hashdyn_bucket hashdyn_count
    hashdyn_foreach hashdyn_foreach_arg hashdyn_memory_usage
    (fun st h => h mod hd_bucket_max st).

(** tommyhashlin.h / tommyhashlin.c; init has no size argument *)
Definition hashlin_table : table :=
  Table hashlin (fun _ => hashlin_init) hashlin_done hashlin_insert hashlin_remove
    (fun _ => hashlin_remove_existing) hashlin_search hashlin_bucket hashlin_count
    hashlin_foreach hashlin_foreach_arg hashlin_memory_usage
    (fun st h => if decide (h mod hl_low_max st < hl_split st) then h mod hl_bucket_max st else h mod hl_low_max st).

(** ** Operations of a client *)
Inductive top :=
| TInit (n : Z)                              (* init(table, n) *)
| TInsert (p d h : Z)                        (* insert(table, p, d, h) *)
| TRemove (f : Z -> Z -> M Z) (g : Z -> Z -> Z) (arg h : Z)
                                             (* remove(table, f, arg, h), where f computes g *)
| TRemoveExisting (p : Z)                    (* remove_existing(table, p) *)
| TSearch (f : Z -> Z -> M Z) (g : Z -> Z -> Z) (arg h : Z)
                                             (* search(table, f, arg, h), where f computes g *)
| TBucket (h : Z)                            (* follow next from bucket(table, h), reading data *)
| TCount                                     (* count(table) *)
| TForeach                                   (* foreach(table, visit) *)
| TForeachArg (arg : Z)                      (* foreach_arg(table, visit, arg) *)
| TForeachFree                               (* foreach(table, free) *)
| TDone.                                     (* done(table) *)

Inductive tout :=
| TONone
| TOWord (z : Z)
| TOFound (d : Z) (calls : list Z)  (* result, and what the comparison was called with *)
| TOData (l : list Z)               (* what the callback was called with, in order *)
| TONodes (l : list (Z * Z)).       (* nodes with their data *)

(** The client's code for each operation.  [t] is the tape of the callbacks;
    [None]: the struct is not initialised, using it is undefined behaviour. *)
Definition tstep (T : table) (fuel : nat) (t : Z) (cs : option (tb_st T)) (o : top)
    : M (option (tb_st T) * tout) :=
  match o, cs with
  | TInit n, _ => s ← tb_init T n; mret (Some s, TONone)
  | _, None => ub
  | TInsert p d h, Some s => s' ← tb_insert T fuel s p d h; mret (Some s', TONone)
  | TRemove f _ arg h, Some s =>
      r ← tb_remove T fuel s (tape_cmp t (fun _ => f)) arg h;
      c ← tape_take t;
      mret (Some r.1, TOFound r.2 c)
  | TRemoveExisting p, Some s => r ← tb_remove_existing T fuel s p; mret (Some r.1, TOWord r.2)
  | TSearch f _ arg h, Some s =>
      d ← tb_search T fuel s (tape_cmp t (fun _ => f)) arg h;
      c ← tape_take t;
      mret (Some s, TOFound d c)
  | TBucket h, Some s => i ← tb_bucket T s h; r ← list_walk fuel i; mret (Some s, TONodes r)
  | TCount, Some s => mret (Some s, TOWord (tb_count T s))
  | TForeach, Some s => tb_foreach T fuel s (visit t);; c ← tape_take t; mret (Some s, TOData c)
  | TForeachArg arg, Some s =>
      tb_foreach_arg T fuel s (visit_arg t) arg;; c ← tape_take t; mret (Some s, TOData c)
  | TForeachFree, Some s => tb_foreach T fuel s (visit_free t);; c ← tape_take t; mret (Some s, TOData c)
  | TDone, Some s => tb_done T s;; mret (None, TONone)
  end.

(** ** Abstract state *)

(** An element: node, data, hash. *)
Record ent := Ent { en_p : Z; en_d : Z; en_h : Z }.

(** The table: not initialised; the elements in insertion order; or a table
    whose elements have been deallocated, good only for [TDone]. *)
Inductive tab := TabNone | TabEs (es : list ent) | TabFreed.

Record tstate := TState {
  ts_free : gset Z;             (* client nodes in no table *)
  ts_tab : tab;
  ts_live : gmap Z region }.    (* live heap blocks of the client *)

(** [e] is what a search for [h] with comparison [f arg] accepts. *)
Definition accepts (f : Z -> Z -> Z) (arg h : Z) (e : ent) : Prop :=
  en_h e = h /\ f arg (en_d e) = 0.

(** The calls of the comparison made by a search that looks at [es]: only the
    elements with hash [h]. *)
Definition calls (arg h : Z) (es : list ent) : list Z :=
  e ← filter (fun e => en_h e = h) es; [arg; en_d e].

Definition word (h : Z) : Prop := 0 <= h < 2 ^ 64.

(** What a client may do.  [K] is the memory that the comparisons read. *)
Definition tpre (om : objmap) (K : mem) (s : tstate) (o : top) : Prop :=
  match o with
  | TInit n => ts_tab s = TabNone /\ 0 <= n <= 2 ^ 60
  | TInsert p _ h => p ∈ ts_free s /\ (exists es, ts_tab s = TabEs es) /\ word h
  | TRemove f g arg h | TSearch f g arg h =>
      (exists es, ts_tab s = TabEs es /\
         forall e, e ∈ es -> en_h e = h -> reads K f g arg (en_d e)) /\ word h
  | TBucket h => (exists es, ts_tab s = TabEs es) /\ word h
  | TRemoveExisting p => exists es, ts_tab s = TabEs es /\ p ∈ en_p <$> es
  | TCount | TForeach | TForeachArg _ => exists es, ts_tab s = TabEs es
  | TForeachFree =>
      exists es, ts_tab s = TabEs es /\ Forall (fun e => freeable (ts_live s) om (en_p e) (en_d e)) es
  | TDone => ts_tab s <> TabNone
  end.

(** What the answer and the new state must be. *)
Definition tpost (s : tstate) (o : top) (a : tout) (s' : tstate) : Prop :=
  match o with
  | TInit n => a = TONone /\ s' = TState (ts_free s) (TabEs []) (ts_live s)
  | TInsert p d h =>
      exists es, ts_tab s = TabEs es /\ a = TONone /\
      s' = TState (ts_free s ∖ {[p]}) (TabEs (es ++ [Ent p d h])) (ts_live s)
  | TRemove _ f arg h =>
      (* either the first accepted element is removed *)
      (exists es1 e es2, ts_tab s = TabEs (es1 ++ e :: es2) /\
        accepts f arg h e /\ Forall (fun e => ~ accepts f arg h e) es1 /\
        a = TOFound (en_d e) (calls arg h (es1 ++ [e])) /\
        s' = TState (ts_free s ∪ {[en_p e]}) (TabEs (es1 ++ es2)) (ts_live s)) \/
      (* or no element is accepted *)
      (exists es, ts_tab s = TabEs es /\ Forall (fun e => ~ accepts f arg h e) es /\
        a = TOFound 0 (calls arg h es) /\ s' = s)
  | TRemoveExisting p =>
      exists es1 d h es2, ts_tab s = TabEs (es1 ++ Ent p d h :: es2) /\ a = TOWord d /\
      s' = TState (ts_free s ∪ {[p]}) (TabEs (es1 ++ es2)) (ts_live s)
  | TSearch _ f arg h =>
      s' = s /\
      ((exists es1 e es2, ts_tab s = TabEs (es1 ++ e :: es2) /\
        accepts f arg h e /\ Forall (fun e => ~ accepts f arg h e) es1 /\
        a = TOFound (en_d e) (calls arg h (es1 ++ [e]))) \/
       (exists es, ts_tab s = TabEs es /\ Forall (fun e => ~ accepts f arg h e) es /\
        a = TOFound 0 (calls arg h es)))
  | TBucket h =>
      (* elements of the table, among which all those with hash [h], in
         insertion order *)
      exists es xs, ts_tab s = TabEs es /\ a = TONodes ((fun e => (en_p e, en_d e)) <$> xs) /\
      xs ⊆+ es /\ filter (fun e => en_h e = h) xs = filter (fun e => en_h e = h) es /\ s' = s
  | TCount => exists es, ts_tab s = TabEs es /\ a = TOWord (Z.of_nat (length es)) /\ s' = s
  | TForeach =>
      exists es es', ts_tab s = TabEs es /\ Permutation es' es /\ a = TOData (en_d <$> es') /\ s' = s
  | TForeachArg arg =>
      exists es es', ts_tab s = TabEs es /\ Permutation es' es /\
      a = TOData (e ← es'; [arg; en_d e]) /\ s' = s
  | TForeachFree =>
      exists es es', ts_tab s = TabEs es /\ Permutation es' es /\ a = TOData (en_d <$> es') /\
      s' = TState (ts_free s) TabFreed (free_all (en_d <$> es') (ts_live s))
  | TDone =>
      a = TONone /\
      s' = TState (ts_free s ∪ match ts_tab s with TabEs es => list_to_set (en_p <$> es) | _ => ∅ end)
             TabNone (ts_live s)
  end.

(** ** The initial memory *)
Definition table_start (om : objmap) (K : mem) (t : Z) (live : gmap Z region) (m : mem) : Prop :=
  client_ok 4 om [HCTL; t] m /\ m !! t = Some (Tape []) /\ heap_live m live /\
  separate K (HCTL :: t :: objs_cells om) m.

Definition tstate0 (om : objmap) (live : gmap Z region) : tstate :=
  TState (dom om) TabNone live.

(** ** What must hold after any client has run *)

(** The callback leaves alone the nodes of the table that have not been visited
    yet and the heap blocks [int] of the table; what it does to the rest, the
    object it is called with included, is free. *)
Definition same_cells (l : list Z) (m m' : mem) : Prop := forall a, a ∈ l -> m' !! a = m !! a.
Definition spares_table (func : Z -> M unit) (int : gmap Z region) (xs : list (Z * Z)) (m : mem) : Prop :=
  forall dn x more m1 m2, xs = dn ++ x :: more ->
  same_nodes (x :: more) m m1 -> same_cells (blocks_cells int) m m1 ->
  func x.2 m1 = Ok tt m2 -> same_nodes more m m2 /\ same_cells (blocks_cells int) m m2.

(** What foreach does with any callback: there is an order of the elements,
    the same for all callbacks, in which it calls it once for each of them; and
    it does nothing else. *)
Definition visits (T : table) (st : tb_st T) (es : list ent) (int : gmap Z region) (m : mem) : Prop :=
  exists es', Permutation es' es /\
  forall func fuel, (length es <= fuel)%nat ->
  spares_table func int ((fun e => (en_p e, en_d e)) <$> es') m ->
  tb_foreach T fuel st func m = each func (en_d <$> es') m.

(** The chain that bucket returns for a hash: all the elements of its bucket,
    and no other, those with equal hashes in insertion order. *)
Definition chains (T : table) (st : tb_st T) (es : list ent) (m : mem) : Prop :=
  forall h, word h -> exists i xs, tb_bucket T st h m = Ok i m /\
    Permutation xs (filter (fun e => tb_slot T st (en_h e) = tb_slot T st h) es) /\
    filter (fun e => en_h e = h) xs = filter (fun e => en_h e = h) es /\
    forall fuel, (length xs <= fuel)%nat ->
      list_walk fuel i m = Ok ((fun e => (en_p e, en_d e)) <$> xs) m.

(** [inv st n] is a fact about the struct of a table with [n] elements.  The
    live heap blocks are those of the client and those of the table, and there
    is none of the table after done. *)
Definition table_end (T : table) (inv : tb_st T -> nat -> Prop) (om : objmap) (live : gmap Z region)
    (cs : option (tb_st T)) (tr : list (top * tout)) (m' : mem) : Prop :=
  exists s' int, correct tpost (tstate0 om live) tr s' /\
    heap_live m' (int ∪ ts_live s') /\ int ##ₘ ts_live s' /\
    match ts_tab s' with
    | TabNone => cs = None /\ int = ∅
    | TabEs es => exists st, cs = Some st /\ inv st (length es) /\ visits T st es int m' /\
        tb_memory_usage T st = heap_bytes int + 32 * Z.of_nat (length es) /\ chains T st es m'
    | TabFreed => True
    end.

(** ** Vocabulary of the single properties *)

(** After the operations [tr] the table holds the elements [es], in insertion
    order. *)
Definition content (om : objmap) (live : gmap Z region) (tr : list (top * tout)) (es : list ent) : Prop :=
  exists s, correct tpost (tstate0 om live) tr s /\ ts_tab s = TabEs es.

(** Data of the earliest element accepted by the comparison, 0 if there is none. *)
Fixpoint first_match (f : Z -> Z -> Z) (arg h : Z) (es : list ent) : Z :=
  match es with
  | [] => 0
  | e :: es => if decide (en_h e = h /\ f arg (en_d e) = 0) then en_d e else first_match f arg h es
  end.

(** The elements without the earliest one accepted by the comparison. *)
Fixpoint remove_first (f : Z -> Z -> Z) (arg h : Z) (es : list ent) : list ent :=
  match es with
  | [] => []
  | e :: es => if decide (en_h e = h /\ f arg (en_d e) = 0) then es else e :: remove_first f arg h es
  end.

(** [Q] holds after every run of an allowed client. *)
Definition after_any_history (T : table)
    (Q : objmap -> gmap Z region -> option (tb_st T) -> list (top * tout) -> mem -> Prop) : Prop :=
  forall om K t live m fuel c,
    table_start om K t live m -> (size om <= fuel)%nat ->
    allowed (tpre om K) tpost (tstate0 om live) c ->
    safe (run (tstep T fuel t) None c m) (fun r m' => Q om live r.1 r.2 m').
