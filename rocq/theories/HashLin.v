(** * Model of tommyhashlin.c / tommyhashlin.h (linear chained hashtable) *)
From Verif Require Export Bucket.
Global Open Scope Z_scope.

(** tommyhashlin.h:152 *)
Definition HASHLIN_BIT : Z := 6.

(** tommyhashlin.c:39-41 *)
Definition STATE_STABLE : Z := 0.
Definition STATE_GROW : Z := 1.
Definition STATE_SHRINK : Z := 2.

(** tommyhashlin.h:164-174 tommy_hashlin.  [hl_bucket] is the array of
    TOMMY_SIZE_BIT = 64 segment pointers; [None] is an entry never written. *)
Record hashlin := HashLin {
  hl_bucket : list (option Z);
  hl_bucket_max : Z;
  hl_bucket_mask : Z;
  hl_low_max : Z;
  hl_low_mask : Z;
  hl_split : Z;
  hl_count : Z;
  hl_bucket_bit : Z;
  hl_state : Z }.

(** Reading and writing the array hashlin->bucket; an index out of the array
    or an uninitialised entry is undefined behaviour. *)
Definition hl_get (t : hashlin) (i : Z) : M Z :=
  if decide (0 <= i < 64) then
    match hl_bucket t !! Z.to_nat i with Some (Some p) => mret p | _ => ub end
  else ub.
Definition hl_set (t : hashlin) (i p : Z) : M hashlin :=
  if decide (0 <= i < 64) then
    mret (HashLin (<[Z.to_nat i := Some p]> (hl_bucket t)) (hl_bucket_max t) (hl_bucket_mask t)
           (hl_low_max t) (hl_low_mask t) (hl_split t) (hl_count t) (hl_bucket_bit t) (hl_state t))
  else ub.

(** Assignments to the scalar fields. *)
Definition hl_set_count (t : hashlin) (c : Z) : hashlin :=
  HashLin (hl_bucket t) (hl_bucket_max t) (hl_bucket_mask t) (hl_low_max t) (hl_low_mask t)
    (hl_split t) c (hl_bucket_bit t) (hl_state t).
Definition hl_set_split (t : hashlin) (s : Z) : hashlin :=
  HashLin (hl_bucket t) (hl_bucket_max t) (hl_bucket_mask t) (hl_low_max t) (hl_low_mask t)
    s (hl_count t) (hl_bucket_bit t) (hl_state t).
Definition hl_set_state (t : hashlin) (s : Z) : hashlin :=
  HashLin (hl_bucket t) (hl_bucket_max t) (hl_bucket_mask t) (hl_low_max t) (hl_low_mask t)
    (hl_split t) (hl_count t) (hl_bucket_bit t) s.
Definition hl_set_low (t : hashlin) (lmax lmask : Z) : hashlin :=
  HashLin (hl_bucket t) (hl_bucket_max t) (hl_bucket_mask t) lmax lmask
    (hl_split t) (hl_count t) (hl_bucket_bit t) (hl_state t).
(** bucket_bit = bit; bucket_max = 1 << bucket_bit; bucket_mask = bucket_max - 1 *)
Definition hl_set_bit (t : hashlin) (bit : Z) : M hashlin :=
  if decide (0 <= bit < 64) then
    let bucket_max := shl64 1 bit in
    mret (HashLin (hl_bucket t) bucket_max (sub64 bucket_max 1) (hl_low_max t) (hl_low_mask t)
           (hl_split t) (hl_count t) bit (hl_state t))
  else ub.

(** tommyhashlin.c:46-55 tommy_hashlin_stable *)
Definition hashlin_stable (t : hashlin) : hashlin :=
  hl_set_split (hl_set_low (hl_set_state t STATE_STABLE) (hl_bucket_max t) (hl_bucket_mask t)) 0.

(** tommyhashlin.c:57-73 tommy_hashlin_init; the loop of lines 66-67 fills the
    entries 1..5 *)
Definition hashlin_init : M hashlin :=
  let bucket_max := shl64 1 HASHLIN_BIT in
  segment ← calloc_words bucket_max;
  let bucket := replicate 6 (Some segment) ++ replicate 58 None in
  mret (hashlin_stable (HashLin bucket bucket_max (sub64 bucket_max 1) 0 0 0 0 HASHLIN_BIT 0)).

(** &segment[k] where [segment] may be an adjusted pointer that points outside
    its block: address arithmetic modulo 2^64 *)
Definition seg_ref (segment k : Z) : Z := wrap (segment + 8 * k).

(** tommyhashlin.c:80-83 the for loop of tommy_hashlin_done, [n] iterations *)
Fixpoint hashlin_done_loop (n : nat) (t : hashlin) (i : Z) : M unit :=
  match n with
  | O => mret tt
  | S n =>
      segment ← hl_get t i;
      free (seg_ref segment (shl64 1 i));;
      hashlin_done_loop n t (i + 1)
  end.

(** tommyhashlin.c:75-84 tommy_hashlin_done *)
Definition hashlin_done (t : hashlin) : M unit :=
  segment ← hl_get t 0;
  free segment;;
  hashlin_done_loop (Z.to_nat (hl_bucket_bit t - HASHLIN_BIT)) t HASHLIN_BIT.

(** tommyhashlin.h:210-218 tommy_hashlin_pos *)
Definition hashlin_pos (t : hashlin) (pos : Z) : M Z :=
  bsr ← ilog2 (Z.lor pos 1);
  segment ← hl_get t bsr;
  mret (seg_ref segment pos).

(** tommyhashlin.h:223-247 tommy_hashlin_bucket_ref *)
Definition hashlin_bucket_ref (t : hashlin) (hash : Z) : M Z :=
  let pos := Z.land hash (hl_low_mask t) in
  let high_pos := Z.land hash (hl_bucket_mask t) in
  let pos := if decide (pos < hl_split t) then high_pos else pos in
  hashlin_pos t pos.

(** tommyhashlin.c:154-162 the while loop that flushes a bucket *)
Fixpoint hashlin_flush (fuel : nat) (split0 split1 mask j : Z) : M unit :=
  if decide (j = null) then mret tt else
  match fuel with
  | O => fuel_out
  | S fuel =>
      j_next ← load (f_next j);
      index ← load (f_index j);
      let split := if decide (Z.land index mask ≠ 0) then split1 else split0 in
      head ← load split;
      (if decide (head ≠ null)
       then list_insert_tail_not_empty head j
       else list_insert_first split j);;
      hashlin_flush fuel split0 split1 mask j_next
  end.

(** tommyhashlin.c:132-172 the while loop of growing *)
Fixpoint hashlin_grow_loop (fuel lfuel : nat) (t : hashlin) (split_target : Z) : M hashlin :=
  if decide (wrap (hl_split t + hl_low_max t) < split_target) then
    match lfuel with
    | O => fuel_out
    | S lfuel =>
        split0 ← hashlin_pos t (hl_split t);
        split1 ← hashlin_pos t (wrap (hl_split t + hl_low_max t));
        j ← load split0;
        store split0 null;;
        store split1 null;;
        let mask := hl_low_max t in
        hashlin_flush fuel split0 split1 mask j;;
        let t := hl_set_split t (wrap (hl_split t + 1)) in
        if decide (hl_split t = hl_low_max t)
        then mret (hashlin_stable t)
        else hashlin_grow_loop fuel lfuel t split_target
    end
  else mret t.

(** tommyhashlin.c:89-175 hashlin_grow_step *)
Definition hashlin_grow_step (fuel : nat) (t : hashlin) : M hashlin :=
  t ← (if decide (hl_state t ≠ STATE_GROW ∧ hl_bucket_max t / 2 < hl_count t) then
         t ← (if decide (hl_state t = STATE_STABLE) then
                let t := hl_set_low t (hl_bucket_max t) (hl_bucket_mask t) in
                segment ← malloc (wrap (hl_low_max t * 8));
                t ← hl_set t (hl_bucket_bit t) (seg_ref segment (- hl_low_max t));
                t ← hl_set_bit t (hl_bucket_bit t + 1);
                mret (hl_set_split t 0)
              else mret t);
         mret (hl_set_state t STATE_GROW)
       else mret t);
  if decide (hl_state t = STATE_GROW) then
    hashlin_grow_loop fuel (Z.to_nat (hl_low_max t)) t (wrap (2 * hl_count t))
  else mret t.

(** tommyhashlin.c:211-243 the while loop of shrinking *)
Fixpoint hashlin_shrink_loop (lfuel : nat) (t : hashlin) (split_target : Z) : M hashlin :=
  if decide (split_target < wrap (hl_split t + hl_low_max t)) then
    match lfuel with
    | O => fuel_out
    | S lfuel =>
        let t := hl_set_split t (sub64 (hl_split t) 1) in
        split0 ← hashlin_pos t (hl_split t);
        split1 ← hashlin_pos t (wrap (hl_split t + hl_low_max t));
        list_concat split0 split1;;
        if decide (hl_split t = 0) then
          t ← hl_set_bit t (hl_bucket_bit t - 1);
          segment ← hl_get t (hl_bucket_bit t);
          free (seg_ref segment (shl64 1 (hl_bucket_bit t)));;
          mret (hashlin_stable t)
        else hashlin_shrink_loop lfuel t split_target
    end
  else mret t.

(** tommyhashlin.c:180-245 hashlin_shrink_step *)
Definition hashlin_shrink_step (t : hashlin) : M hashlin :=
  let t :=
    if decide (hl_state t ≠ STATE_SHRINK ∧ hl_count t < hl_bucket_max t / 8 ∧ HASHLIN_BIT < hl_bucket_bit t) then
      let t :=
        if decide (hl_state t = STATE_STABLE) then
          let t := hl_set_low t (hl_bucket_max t / 2) (hl_bucket_mask t / 2) in
          hl_set_split t (hl_low_max t)
        else t in
      hl_set_state t STATE_SHRINK
    else t in
  if decide (hl_state t = STATE_SHRINK) then
    hashlin_shrink_loop (Z.to_nat (hl_low_max t)) t (wrap (8 * hl_count t))
  else mret t.

(** tommyhashlin.c:247-256 tommy_hashlin_insert *)
Definition hashlin_insert (fuel : nat) (t : hashlin) (node data hash : Z) : M hashlin :=
  b ← hashlin_bucket_ref t hash;
  list_insert_tail b node data;;
  store (f_index node) hash;;
  hashlin_grow_step fuel (hl_set_count t (wrap (hl_count t + 1))).

(** tommyhashlin.c:258-267 tommy_hashlin_remove_existing *)
Definition hashlin_remove_existing (t : hashlin) (node : Z) : M (hashlin * Z) :=
  index ← load (f_index node);
  b ← hashlin_bucket_ref t index;
  list_remove_existing b node;;
  t ← hashlin_shrink_step (hl_set_count t (sub64 (hl_count t) 1));
  data ← load (f_data node);
  mret (t, data).

(** tommyhashlin.c:269-289 tommy_hashlin_remove *)
Definition hashlin_remove (fuel : nat) (t : hashlin) (cmp : Z -> Z -> M Z) (cmp_arg hash : Z)
    : M (hashlin * Z) :=
  let_ptr ← hashlin_bucket_ref t hash;
  node ← load let_ptr;
  bucket_remove fuel cmp cmp_arg hash node
    (fun node =>
       list_remove_existing let_ptr node;;
       t ← hashlin_shrink_step (hl_set_count t (sub64 (hl_count t) 1));
       data ← load (f_data node);
       mret (t, data))
    (mret (t, 0)).

(** tommyhashlin.h:257-260 tommy_hashlin_bucket *)
Definition hashlin_bucket (t : hashlin) (hash : Z) : M Z :=
  b ← hashlin_bucket_ref t hash;
  load b.

(** tommyhashlin.h:272-283 tommy_hashlin_search *)
Definition hashlin_search (fuel : nat) (t : hashlin) (cmp : Z -> Z -> M Z) (cmp_arg hash : Z) : M Z :=
  i ← hashlin_bucket t hash;
  bucket_search fuel cmp cmp_arg hash i.

(** tommyhashlin.c:291-308 tommy_hashlin_foreach *)
Definition hashlin_foreach (fuel : nat) (t : hashlin) (func : Z -> M unit) : M unit :=
  let bucket_max := wrap (hl_low_max t + hl_split t) in
  buckets_foreach fuel (Z.to_nat bucket_max) 0 (hashlin_pos t) func.

(** tommyhashlin.c:310-327 tommy_hashlin_foreach_arg *)
Definition hashlin_foreach_arg (fuel : nat) (t : hashlin) (func : Z -> Z -> M unit) (arg : Z) : M unit :=
  let bucket_max := wrap (hl_low_max t + hl_split t) in
  buckets_foreach fuel (Z.to_nat bucket_max) 0 (hashlin_pos t) (func arg).

(** tommyhashlin.h:333-336 tommy_hashlin_count *)
Definition hashlin_count (t : hashlin) : Z := hl_count t.

(** tommyhashlin.c:329-333 tommy_hashlin_memory_usage *)
Definition hashlin_memory_usage (t : hashlin) : Z :=
  wrap (wrap (hl_bucket_max t * 8) + wrap (hl_count t * 32)).
