(** * Model of tommyhashdyn.c / tommyhashdyn.h (dynamic chained hashtable) *)
From Verif Require Export Bucket.
Global Open Scope Z_scope.

(** tommyhashdyn.h:149 *)
Definition HASHDYN_BIT : Z := 4.

(** tommyhashdyn.h:161-167 tommy_hashdyn *)
Record hashdyn := HashDyn {
  hd_bucket : Z;
  hd_bucket_max : Z;
  hd_bucket_mask : Z;
  hd_count : Z;
  hd_bucket_bit : Z }.

Definition hd_set_count (t : hashdyn) (c : Z) : hashdyn :=
  HashDyn (hd_bucket t) (hd_bucket_max t) (hd_bucket_mask t) c (hd_bucket_bit t).

(** tommyhashdyn.c:34-43 tommy_hashdyn_init *)
Definition hashdyn_init : M hashdyn :=
  let bucket_max := shl64 1 HASHDYN_BIT in
  bucket ← calloc_words bucket_max;
  mret (HashDyn bucket bucket_max (sub64 bucket_max 1) 0 HASHDYN_BIT).

(** tommyhashdyn.c:45-48 tommy_hashdyn_done *)
Definition hashdyn_done (t : hashdyn) : M unit := free (hd_bucket t).

(** tommyhashdyn.c:85-93 the while loop that reinserts the nodes of one bucket *)
Fixpoint hashdyn_reinsert (fuel : nat) (new_bucket new_bucket_mask j : Z) : M unit :=
  if decide (j = null) then mret tt else
  match fuel with
  | O => fuel_out
  | S fuel =>
      j_next ← load (f_next j);
      index ← load (f_index j);
      let pos := Z.land index new_bucket_mask in
      head ← load (new_bucket + 8 * pos);
      (if decide (head ≠ null)
       then list_insert_tail_not_empty head j
       else list_insert_first (new_bucket + 8 * pos) j);;
      hashdyn_reinsert fuel new_bucket new_bucket_mask j_next
  end.

(** tommyhashdyn.c:76-94 the for loop of growing; [n] buckets still to do *)
Fixpoint hashdyn_grow_loop (fuel n : nat) (bucket bucket_max new_bucket new_bucket_mask i : Z) : M unit :=
  match n with
  | O => mret tt
  | S n =>
      store (new_bucket + 8 * i) null;;
      store (new_bucket + 8 * wrap (i + bucket_max)) null;;
      j ← load (bucket + 8 * i);
      hashdyn_reinsert fuel new_bucket new_bucket_mask j;;
      hashdyn_grow_loop fuel n bucket bucket_max new_bucket new_bucket_mask (wrap (i + 1))
  end.

(** tommyhashdyn.c:99-105 the for loop of shrinking; [n] buckets still to do *)
Fixpoint hashdyn_shrink_loop (n : nat) (bucket new_bucket new_bucket_max i : Z) : M unit :=
  match n with
  | O => mret tt
  | S n =>
      b ← load (bucket + 8 * i);
      store (new_bucket + 8 * i) b;;
      list_concat (new_bucket + 8 * i) (bucket + 8 * wrap (i + new_bucket_max));;
      hashdyn_shrink_loop n bucket new_bucket new_bucket_max (wrap (i + 1))
  end.

(** tommyhashdyn.c:53-115 tommy_hashdyn_resize.  A shift count of 64 or more
    would be undefined behaviour. *)
Definition hashdyn_resize (fuel : nat) (t : hashdyn) (new_bucket_bit : Z) : M hashdyn :=
  let bucket_bit := hd_bucket_bit t in
  let bucket_max := hd_bucket_max t in
  if decide (64 <= new_bucket_bit) then ub else
  let new_bucket_max := shl64 1 new_bucket_bit in
  let new_bucket_mask := sub64 new_bucket_max 1 in
  new_bucket ← malloc (wrap (new_bucket_max * 8));
  (if decide (bucket_bit < new_bucket_bit)
   then hashdyn_grow_loop fuel (Z.to_nat bucket_max) (hd_bucket t) bucket_max new_bucket new_bucket_mask 0
   else hashdyn_shrink_loop (Z.to_nat new_bucket_max) (hd_bucket t) new_bucket new_bucket_max 0);;
  free (hd_bucket t);;
  mret (HashDyn new_bucket new_bucket_max new_bucket_mask (hd_count t) new_bucket_bit).

(** tommyhashdyn.c:120-125 hashdyn_grow_step *)
Definition hashdyn_grow_step (fuel : nat) (t : hashdyn) : M hashdyn :=
  if decide (hd_bucket_max t / 2 <= hd_count t)
  then hashdyn_resize fuel t (hd_bucket_bit t + 1)
  else mret t.

(** tommyhashdyn.c:130-135 hashdyn_shrink_step *)
Definition hashdyn_shrink_step (fuel : nat) (t : hashdyn) : M hashdyn :=
  if decide (hd_count t <= hd_bucket_max t / 8 ∧ HASHDYN_BIT < hd_bucket_bit t)
  then hashdyn_resize fuel t (hd_bucket_bit t - 1)
  else mret t.

(** &hashdyn->bucket[pos] *)
Definition hashdyn_ref (t : hashdyn) (pos : Z) : Z := hd_bucket t + 8 * pos.

(** tommyhashdyn.c:137-148 tommy_hashdyn_insert *)
Definition hashdyn_insert (fuel : nat) (t : hashdyn) (node data hash : Z) : M hashdyn :=
  let pos := Z.land hash (hd_bucket_mask t) in
  list_insert_tail (hashdyn_ref t pos) node data;;
  store (f_index node) hash;;
  hashdyn_grow_step fuel (hd_set_count t (wrap (hd_count t + 1))).

(** tommyhashdyn.c:150-161 tommy_hashdyn_remove_existing *)
Definition hashdyn_remove_existing (fuel : nat) (t : hashdyn) (node : Z) : M (hashdyn * Z) :=
  index ← load (f_index node);
  let pos := Z.land index (hd_bucket_mask t) in
  list_remove_existing (hashdyn_ref t pos) node;;
  t ← hashdyn_shrink_step fuel (hd_set_count t (sub64 (hd_count t) 1));
  data ← load (f_data node);
  mret (t, data).

(** tommyhashdyn.c:163-183 tommy_hashdyn_remove *)
Definition hashdyn_remove (fuel : nat) (t : hashdyn) (cmp : Z -> Z -> M Z) (cmp_arg hash : Z)
    : M (hashdyn * Z) :=
  let pos := Z.land hash (hd_bucket_mask t) in
  node ← load (hashdyn_ref t pos);
  bucket_remove fuel cmp cmp_arg hash node
    (fun node =>
       list_remove_existing (hashdyn_ref t pos) node;;
       t ← hashdyn_shrink_step fuel (hd_set_count t (sub64 (hd_count t) 1));
       data ← load (f_data node);
       mret (t, data))
    (mret (t, 0)).

(** tommyhashdyn.h:208-211 tommy_hashdyn_bucket *)
Definition hashdyn_bucket (t : hashdyn) (hash : Z) : M Z :=
  load (hashdyn_ref t (Z.land hash (hd_bucket_mask t))).

(** tommyhashdyn.h:223-234 tommy_hashdyn_search *)
Definition hashdyn_search (fuel : nat) (t : hashdyn) (cmp : Z -> Z -> M Z) (cmp_arg hash : Z) : M Z :=
  i ← hashdyn_bucket t hash;
  bucket_search fuel cmp cmp_arg hash i.

(** tommyhashdyn.c:185-200 tommy_hashdyn_foreach *)
Definition hashdyn_foreach (fuel : nat) (t : hashdyn) (func : Z -> M unit) : M unit :=
  buckets_foreach fuel (Z.to_nat (hd_bucket_max t)) 0 (fun pos => mret (hashdyn_ref t pos)) func.

(** tommyhashdyn.c:202-217 tommy_hashdyn_foreach_arg *)
Definition hashdyn_foreach_arg (fuel : nat) (t : hashdyn) (func : Z -> Z -> M unit) (arg : Z) : M unit :=
  buckets_foreach fuel (Z.to_nat (hd_bucket_max t)) 0 (fun pos => mret (hashdyn_ref t pos)) (func arg).

(** tommyhashdyn.h:284-287 tommy_hashdyn_count *)
Definition hashdyn_count (t : hashdyn) : Z := hd_count t.

(** tommyhashdyn.c:219-223 tommy_hashdyn_memory_usage *)
Definition hashdyn_memory_usage (t : hashdyn) : Z :=
  wrap (wrap (hd_bucket_max t * 8) + wrap (hashdyn_count t * 32)).
