(** * Specification of the arrays: the same one for the four of them. *)
From Verif Require Export Client Array.
Global Open Scope Z_scope.

(** ** The operations of an array

    [ay_words]: the elements are pointers, otherwise they are objects of
    [element_size] bytes, and set, get and insert do not exist.  [ay_max] is
    the largest size that may be requested. *)
Record arrays := Arrays {
  ay_st : Type;
  ay_words : bool;
  ay_max : Z;
  ay_init : Z -> M ay_st;
  ay_done : ay_st -> M unit;
  ay_grow : ay_st -> Z -> M ay_st;
  ay_ref : ay_st -> Z -> M Z;
  ay_size : ay_st -> Z;
  ay_usage : ay_st -> Z;
  ay_set : ay_st -> Z -> Z -> M unit;
  ay_get : ay_st -> Z -> M Z;
  ay_insert : ay_st -> Z -> M ay_st }.

(** tommyarray.h; init has no element size *)
Definition array_a : arrays :=
  Arrays array true (2 ^ 64 - 1) (fun _ => array_init) array_done array_grow array_ref array_size
    array_memory_usage array_set array_get array_insert.
(** tommyarrayof.h *)
Definition arrayof_a : arrays :=
  Arrays arrayof false (2 ^ 64 - 1) arrayof_init arrayof_done arrayof_grow arrayof_ref arrayof_size
    arrayof_memory_usage (fun _ _ _ => ub) (fun _ _ => ub) (fun _ _ => ub).
(** tommyarrayblk.h; init has no element size *)
Definition arrayblk_a : arrays :=
  Arrays arrayblk true (2 ^ 64 - 4096) (fun _ => arrayblk_init) arrayblk_done arrayblk_grow arrayblk_ref
    arrayblk_size arrayblk_memory_usage arrayblk_set arrayblk_get arrayblk_insert.
(** tommyarrayblkof.h *)
Definition arrayblkof_a : arrays :=
  Arrays arrayblkof false (2 ^ 64 - 4096) arrayblkof_init arrayblkof_done arrayblkof_grow arrayblkof_ref
    arrayblkof_size arrayblkof_memory_usage (fun _ _ _ => ub) (fun _ _ => ub) (fun _ _ => ub).

(** ** Operations of a client *)
Inductive aop :=
| AInit (k : Z)        (* init(array) or init(array, k) *)
| AGrow (n : Z)        (* grow(array, n) *)
| ASize                (* size(array) *)
| AUsage               (* memory_usage(array) *)
| ARef (i : Z)         (* ref(array, i) *)
| ASet (i v : Z)       (* set(array, i, v) *)
| AGet (i : Z)         (* get(array, i) *)
| AInsert (v : Z)      (* insert(array, v) *)
| ARead (p : Z)        (* read the word or the byte at p *)
| AWrite (p v : Z)     (* write the word or the byte at p *)
| ADone.               (* done(array) *)

Inductive aout := AONone | AOWord (z : Z).

(** The client's code for each operation; [None]: the struct is not
    initialised. *)
Definition astep (T : arrays) (cs : option (ay_st T)) (o : aop) : M (option (ay_st T) * aout) :=
  match o, cs with
  | AInit k, _ => s ← ay_init T k; mret (Some s, AONone)
  | _, None => ub
  | AGrow n, Some s => s' ← ay_grow T s n; mret (Some s', AONone)
  | ASize, Some s => mret (Some s, AOWord (ay_size T s))
  | AUsage, Some s => mret (Some s, AOWord (ay_usage T s))
  | ARef i, Some s => p ← ay_ref T s i; mret (Some s, AOWord p)
  | ASet i v, Some s => ay_set T s i v;; mret (Some s, AONone)
  | AGet i, Some s => v ← ay_get T s i; mret (Some s, AOWord v)
  | AInsert v, Some s => s' ← ay_insert T s v; mret (Some s', AONone)
  | ARead p, Some s => v ← (if ay_words T then load p else loadb p); mret (Some s, AOWord v)
  | AWrite p v, Some s => (if ay_words T then store p v else storeb p v);; mret (Some s, AONone)
  | ADone, Some s => ay_done T s;; mret (None, AONone)
  end.

(** ** Abstract state *)

(** An element: its address, and the values of its words (only one) or bytes. *)
Record elt := Elt { el_addr : Z; el_vals : list Z }.

Record astate := AState {
  as_arr : option (nat * list elt);   (* words or bytes per element; the elements *)
  as_own : gmap Z region;             (* live heap blocks of the array *)
  as_live : gmap Z region }.          (* live heap blocks of the client *)

(** Bytes of a word or of a byte *)
Definition unit_size (words : bool) : Z := if words then 8 else 1.
Definition el_size (words : bool) (e : elt) : Z := unit_size words * Z.of_nat (length (el_vals e)).
(** The address of the [j]-th word or byte of an element *)
Definition el_cell (words : bool) (e : elt) (j : nat) : Z := el_addr e + unit_size words * Z.of_nat j.

(** Intervals of bytes that do not overlap *)
Definition apart (a n b k : Z) : Prop := a + n <= b \/ b + k <= a.

(** The elements do not overlap each other, and each one is inside a block of
    the array; the blocks do not overlap each other and are not blocks of the
    client. *)
Definition awf (words : bool) (es : list elt) (own live : gmap Z region) : Prop :=
  own ##ₘ live /\
  (forall b r b' r', own !! b = Some r -> own !! b' = Some r' -> b <> b' ->
    apart b (region_bytes r) b' (region_bytes r')) /\
  (forall i j e e', es !! i = Some e -> es !! j = Some e' -> i <> j ->
    apart (el_addr e) (el_size words e) (el_addr e') (el_size words e')) /\
  (forall e, e ∈ es -> exists b r, own !! b = Some r /\
    b <= el_addr e /\ el_addr e + el_size words e <= b + region_bytes r).

(** What a client may do. *)
Definition apre (T : arrays) (s : astate) (o : aop) : Prop :=
  match o with
  | AInit k => as_arr s = None /\ 1 <= k < 2 ^ 64
  | AGrow n => is_Some (as_arr s) /\ 0 <= n <= ay_max T
  | ASize | AUsage | ADone => is_Some (as_arr s)
  | ARef i => exists k es, as_arr s = Some (k, es) /\ 0 <= i < Z.of_nat (length es)
  | ASet i _ | AGet i =>
      ay_words T = true /\ exists k es, as_arr s = Some (k, es) /\ 0 <= i < Z.of_nat (length es)
  | AInsert _ => ay_words T = true /\ is_Some (as_arr s)
  | ARead p | AWrite p _ =>
      exists k es e j, as_arr s = Some (k, es) /\ e ∈ es /\ (j < length (el_vals e))%nat /\
        p = el_cell (ay_words T) e j
  end.

(** [news] are [n] new elements of [k] words or bytes, all zero. *)
Definition zeroed (n : Z) (k : nat) (news : list elt) : Prop :=
  Z.of_nat (length news) = n /\ Forall (fun e => el_vals e = replicate k 0) news.

(** What the answer and the new state must be. *)
Definition apost (T : arrays) (s : astate) (o : aop) (a : aout) (s' : astate) : Prop :=
  let w := ay_words T in
  match o with
  | AInit k =>
      a = AONone /\ exists own, s' = AState (Some (if w then 1%nat else Z.to_nat k, [])) own (as_live s) /\
      awf w [] own (as_live s)
  | AGrow n =>
      a = AONone /\ exists k es news own, as_arr s = Some (k, es) /\
      s' = AState (Some (k, es ++ news)) own (as_live s) /\
      zeroed (Z.max 0 (n - Z.of_nat (length es))) k news /\
      as_own s ⊆ own /\ awf w (es ++ news) own (as_live s)
  | ASize => exists k es, as_arr s = Some (k, es) /\ a = AOWord (Z.of_nat (length es)) /\ s' = s
  | AUsage => a = AOWord (heap_bytes (as_own s)) /\ s' = s
  | ARef i =>
      exists k es e, as_arr s = Some (k, es) /\ es !! Z.to_nat i = Some e /\
      a = AOWord (el_addr e) /\ s' = s
  | ASet i v =>
      exists es e, as_arr s = Some (1%nat, es) /\ es !! Z.to_nat i = Some e /\ a = AONone /\
      s' = AState (Some (1%nat, <[Z.to_nat i := Elt (el_addr e) [v]]> es)) (as_own s) (as_live s)
  | AGet i =>
      exists k es p v, as_arr s = Some (k, es) /\ es !! Z.to_nat i = Some (Elt p [v]) /\
      a = AOWord v /\ s' = s
  | AInsert v =>
      a = AONone /\ exists es p own, as_arr s = Some (1%nat, es) /\
      s' = AState (Some (1%nat, es ++ [Elt p [v]])) own (as_live s) /\
      as_own s ⊆ own /\ awf w (es ++ [Elt p [v]]) own (as_live s)
  | ARead p =>
      exists k es e j v, as_arr s = Some (k, es) /\ e ∈ es /\ el_vals e !! j = Some v /\
      p = el_cell w e j /\ a = AOWord v /\ s' = s
  | AWrite p v =>
      exists k es i e j, as_arr s = Some (k, es) /\ es !! i = Some e /\ (j < length (el_vals e))%nat /\
      p = el_cell w e j /\ a = AONone /\
      s' = AState (Some (k, <[i := Elt (el_addr e) (<[j := v]> (el_vals e))]> es)) (as_own s) (as_live s)
  | ADone => a = AONone /\ s' = AState None ∅ (as_live s)
  end.

(** ** Initial memory and final state *)
Definition astate0 (live : gmap Z region) : astate := AState None ∅ live.

(** Contents of a cell *)
Definition unit_cell (words : bool) (v : Z) : cell := if words then W v else B v.

(** [inv st n k] is a fact about the struct of an array of [n] elements of [k]
    words or bytes. *)
Definition array_end (T : arrays) (inv : ay_st T -> Z -> Z -> Prop) (live : gmap Z region)
    (cs : option (ay_st T)) (tr : list (aop * aout)) (m' : mem) : Prop :=
  exists s', correct (apost T) (astate0 live) tr s' /\
    heap_live m' (as_own s' ∪ as_live s') /\ as_own s' ##ₘ as_live s' /\
    match as_arr s' with
    | None => cs = None /\ as_own s' = ∅
    | Some (k, es) =>
        (exists st, cs = Some st /\ inv st (Z.of_nat (length es)) (Z.of_nat k)) /\
        awf (ay_words T) es (as_own s') (as_live s') /\
        (forall e j v, e ∈ es -> el_vals e !! j = Some v ->
           m' !! el_cell (ay_words T) e j = Some (unit_cell (ay_words T) v))
    end.

(** ** Reading a transcript *)

(** [Q live cs tr m'] holds after the run of any client that respects the
    preconditions, from any memory where the live heap blocks are [live]. *)
Definition after_any_array_history (T : arrays)
    (Q : gmap Z region -> option (ay_st T) -> list (aop * aout) -> mem -> Prop) : Prop :=
  forall live m c, heap_live m live -> allowed (apre T) (apost T) (astate0 live) c ->
  safe (run (astep T) None c m) (fun r m' => Q live r.1 r.2 m').

(** The vector that a client of an array of pointers expects, from the
    operations alone. *)
Definition avec_step (v : list Z) (x : aop * aout) : list Z :=
  match x.1 with
  | AInit _ | ADone => []
  | AGrow n => v ++ replicate (Z.to_nat n - length v) 0
  | ASet i z => <[Z.to_nat i := z]> v
  | AInsert z => v ++ [z]
  | _ => v
  end.
Definition avec (tr : list (aop * aout)) : list Z := foldl avec_step [] tr.

(** The operation writes through a pointer. *)
Definition is_write (x : aop * aout) : Prop := match x.1 with AWrite _ _ => True | _ => False end.
(** The operation is set or insert. *)
Definition is_set (x : aop * aout) : Prop := match x.1 with ASet _ _ | AInsert _ => True | _ => False end.
(** The array is initialised or deinitialised. *)
Definition is_reset (x : aop * aout) : Prop := match x.1 with AInit _ | ADone => True | _ => False end.

(** The last value written at address [p] since the array was initialised; 0
    if none was. *)
Definition last_write (p : Z) (tr : list (aop * aout)) : Z :=
  foldl (fun z x => match x.1 with
    | AInit _ => 0
    | AWrite q v => if decide (q = p) then v else z
    | _ => z end) 0 tr.

(** The size of an element, from the last init. *)
Definition elem_bytes (T : arrays) (tr : list (aop * aout)) : Z :=
  if ay_words T then 8 else foldl (fun z x => match x.1 with AInit k => Z.max 0 k | _ => z end) 0 tr.
