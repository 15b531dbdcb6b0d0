(** * Model of tommyhashtbl.c / tommyhashtbl.h (fixed size chained hashtable) *)
From Verif Require Export Bucket.
Global Open Scope Z_scope.

(** tommyhashtbl.h:145-150 tommy_hashtable.  The struct is not address-taken,
    so it is a record and not part of the memory. *)
Record hashtable := HashTable {
  ht_bucket : Z;
  ht_bucket_max : Z;
  ht_bucket_mask : Z;
  ht_count : Z }.

(** tommyhashtbl.c:36-54 tommy_hashtable_init *)
Definition hashtable_init (bucket_max : Z) : M hashtable :=
  let bucket_max := if decide (bucket_max < 16) then 16 else roundup_pow2 bucket_max in
  let bytes := wrap (bucket_max * 8) in
  bucket ← malloc bytes;
  memset0 bucket (Z.to_nat (bytes / 8));;
  mret (HashTable bucket bucket_max (sub64 bucket_max 1) 0).

(** tommyhashtbl.c:56-59 tommy_hashtable_done *)
Definition hashtable_done (t : hashtable) : M unit := free (ht_bucket t).

(** &hashtable->bucket[pos] *)
Definition hashtable_ref (t : hashtable) (pos : Z) : Z := ht_bucket t + 8 * pos.

(** tommyhashtbl.c:61-70 tommy_hashtable_insert *)
Definition hashtable_insert (t : hashtable) (node data hash : Z) : M hashtable :=
  let pos := Z.land hash (ht_bucket_mask t) in
  list_insert_tail (hashtable_ref t pos) node data;;
  store (f_index node) hash;;
  mret (HashTable (ht_bucket t) (ht_bucket_max t) (ht_bucket_mask t) (wrap (ht_count t + 1))).

(** tommyhashtbl.c:72-81 tommy_hashtable_remove_existing *)
Definition hashtable_remove_existing (t : hashtable) (node : Z) : M (hashtable * Z) :=
  index ← load (f_index node);
  let pos := Z.land index (ht_bucket_mask t) in
  list_remove_existing (hashtable_ref t pos) node;;
  let t := HashTable (ht_bucket t) (ht_bucket_max t) (ht_bucket_mask t) (sub64 (ht_count t) 1) in
  data ← load (f_data node);
  mret (t, data).

(** tommyhashtbl.c:83-101 tommy_hashtable_remove *)
Definition hashtable_remove (fuel : nat) (t : hashtable) (cmp : Z -> Z -> M Z) (cmp_arg hash : Z)
    : M (hashtable * Z) :=
  let pos := Z.land hash (ht_bucket_mask t) in
  node ← load (hashtable_ref t pos);
  bucket_remove fuel cmp cmp_arg hash node
    (fun node =>
       list_remove_existing (hashtable_ref t pos) node;;
       let t := HashTable (ht_bucket t) (ht_bucket_max t) (ht_bucket_mask t) (sub64 (ht_count t) 1) in
       data ← load (f_data node);
       mret (t, data))
    (mret (t, 0)).

(** tommyhashtbl.h:192-195 tommy_hashtable_bucket *)
Definition hashtable_bucket (t : hashtable) (hash : Z) : M Z :=
  load (hashtable_ref t (Z.land hash (ht_bucket_mask t))).

(** tommyhashtbl.h:207-218 tommy_hashtable_search *)
Definition hashtable_search (fuel : nat) (t : hashtable) (cmp : Z -> Z -> M Z) (cmp_arg hash : Z) : M Z :=
  i ← hashtable_bucket t hash;
  bucket_search fuel cmp cmp_arg hash i.

(** tommyhashtbl.c:103-118 tommy_hashtable_foreach *)
Definition hashtable_foreach (fuel : nat) (t : hashtable) (func : Z -> M unit) : M unit :=
  buckets_foreach fuel (Z.to_nat (ht_bucket_max t)) 0 (fun pos => mret (hashtable_ref t pos)) func.

(** tommyhashtbl.c:120-135 tommy_hashtable_foreach_arg *)
Definition hashtable_foreach_arg (fuel : nat) (t : hashtable) (func : Z -> Z -> M unit) (arg : Z) : M unit :=
  buckets_foreach fuel (Z.to_nat (ht_bucket_max t)) 0 (fun pos => mret (hashtable_ref t pos)) (func arg).

(** tommyhashtbl.h:268-271 tommy_hashtable_count *)
Definition hashtable_count (t : hashtable) : Z := ht_count t.

(** tommyhashtbl.c:137-141 tommy_hashtable_memory_usage; sizeof(tommy_node)
    is 32 (tommytypes.h:195-221) *)
Definition hashtable_memory_usage (t : hashtable) : Z :=
  wrap (wrap (ht_bucket_max t * 8) + wrap (hashtable_count t * 32)).
