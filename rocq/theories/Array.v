(** * Model of the arrays: tommyarray.h/.c, tommyarrayof.h/.c,
    tommyarrayblk.h/.c and tommyarrayblkof.h/.c *)
From Verif Require Export Bits.
Global Open Scope Z_scope.

(** ** The array of segment pointers

    In tommy_array and tommy_arrayof it has TOMMY_SIZE_BIT = 64 entries; [None]
    is an entry never written.  An index out of the array or the read of an
    uninitialised entry is undefined behaviour. *)
Definition seg_get (bucket : list (option Z)) (i : Z) : M Z :=
  if decide (0 <= i < 64) then
    match bucket !! Z.to_nat i with Some (Some p) => mret p | _ => ub end
  else ub.
Definition seg_set (bucket : list (option Z)) (i p : Z) : M (list (option Z)) :=
  if decide (0 <= i < 64) then mret (<[Z.to_nat i := Some p]> bucket) else ub.

(** (tommy_size_t)1 << bit: a shift by 64 or more is undefined behaviour *)
Definition size_shift (bit : Z) : M Z :=
  if decide (0 <= bit < 64) then mret (shl64 1 bit) else ub.
(** (tommy_ptrdiff_t)1 << bit: also undefined when the result does not fit *)
Definition ptrdiff_shift (bit : Z) : M Z :=
  if decide (0 <= bit < 63) then mret (shl64 1 bit) else ub.
(** (tommy_ptrdiff_t)x for x of type tommy_size_t: a value that does not fit
    is implementation-defined; counted as undefined behaviour *)
Definition to_ptrdiff (x : Z) : M Z :=
  if decide (x < 2 ^ 63) then mret x else ub.

(** Pointer arithmetic on a pointer that may be outside its block: address
    arithmetic modulo 2^64 *)
Definition ptr_add (p off : Z) : Z := wrap (p + off).

(** ** tommyarray *)

(** tommyarray.h:54 *)
Definition ARRAY_BIT : Z := 6.

(** tommyarray.h:60-65 tommy_array *)
Record array := Array {
  ar_bucket : list (option Z);
  ar_bucket_max : Z;
  ar_count : Z;
  ar_bucket_bit : Z }.

(** tommyarray.c:33-45 tommy_array_init; the loop of lines 41-42 fills the
    entries 1..5 *)
Definition array_init : M array :=
  bucket_max ← size_shift ARRAY_BIT;
  segment ← calloc_words bucket_max;
  mret (Array (replicate 6 (Some segment) ++ replicate 58 None) bucket_max 0 ARRAY_BIT).

(** tommyarray.c:52-55 the for loop of tommy_array_done, [n] iterations *)
Fixpoint array_done_loop (n : nat) (t : array) (i : Z) : M unit :=
  match n with
  | O => mret tt
  | S n =>
      segment ← seg_get (ar_bucket t) i;
      off ← ptrdiff_shift i;
      free (ptr_add segment (8 * off));;
      array_done_loop n t (i + 1)
  end.

(** tommyarray.c:47-56 tommy_array_done *)
Definition array_done (t : array) : M unit :=
  segment ← seg_get (ar_bucket t) 0;
  free segment;;
  array_done_loop (Z.to_nat (ar_bucket_bit t - ARRAY_BIT)) t ARRAY_BIT.

(** tommyarray.c:64-76 the while loop of tommy_array_grow *)
Fixpoint array_grow_loop (fuel : nat) (t : array) (count : Z) : M array :=
  if decide (count > ar_bucket_max t) then
    match fuel with
    | O => fuel_out
    | S fuel =>
        segment ← calloc_words (ar_bucket_max t);
        off ← to_ptrdiff (ar_bucket_max t);
        bucket ← seg_set (ar_bucket t) (ar_bucket_bit t) (ptr_add segment (- (8 * off)));
        let bucket_bit := ar_bucket_bit t + 1 in
        bucket_max ← size_shift bucket_bit;
        array_grow_loop fuel (Array bucket bucket_max (ar_count t) bucket_bit) count
    end
  else mret t.

(** tommyarray.c:58-77 tommy_array_grow; the loop doubles bucket_max, so 64
    iterations are enough *)
Definition array_grow (t : array) (count : Z) : M array :=
  if decide (ar_count t >= count) then mret t else
  array_grow_loop 64 (Array (ar_bucket t) (ar_bucket_max t) count (ar_bucket_bit t)) count.

(** tommyarray.c:79-82 tommy_array_memory_usage *)
Definition array_memory_usage (t : array) : Z := wrap (ar_bucket_max t * 8).

(** tommyarray.h:88-98 tommy_array_ref *)
Definition array_ref (t : array) (pos : Z) : M Z :=
  massert (bool_decide (pos < ar_count t));;
  bsr ← ilog2 (Z.lor pos 1);
  segment ← seg_get (ar_bucket t) bsr;
  mret (ptr_add segment (8 * pos)).

(** tommyarray.h:105-108 tommy_array_set *)
Definition array_set (t : array) (pos element : Z) : M unit :=
  p ← array_ref t pos;
  store p element.

(** tommyarray.h:115-118 tommy_array_get *)
Definition array_get (t : array) (pos : Z) : M Z :=
  p ← array_ref t pos;
  load p.

(** tommyarray.h:123-130 tommy_array_insert *)
Definition array_insert (t : array) (element : Z) : M array :=
  let pos := ar_count t in
  t' ← array_grow t (add64 pos 1);
  array_set t' pos element;;
  mret t'.

(** tommyarray.h:135-138 tommy_array_size *)
Definition array_size (t : array) : Z := ar_count t.

(** ** tommyarrayof *)

(** tommyarrayof.h:54 *)
Definition ARRAYOF_BIT : Z := 6.

(** tommyarrayof.h:60-66 tommy_arrayof *)
Record arrayof := ArrayOf {
  ao_bucket : list (option Z);
  ao_element_size : Z;
  ao_bucket_max : Z;
  ao_count : Z;
  ao_bucket_bit : Z }.

(** tommyarrayof.c:33-46 tommy_arrayof_init; the loop of lines 42-43 fills the
    entries 1..5 *)
Definition arrayof_init (element_size : Z) : M arrayof :=
  bucket_max ← size_shift ARRAYOF_BIT;
  segment ← calloc_bytes bucket_max element_size;
  mret (ArrayOf (replicate 6 (Some segment) ++ replicate 58 None) element_size bucket_max 0 ARRAYOF_BIT).

(** tommyarrayof.c:53-56 the for loop of tommy_arrayof_done, [n] iterations *)
Fixpoint arrayof_done_loop (n : nat) (t : arrayof) (i : Z) : M unit :=
  match n with
  | O => mret tt
  | S n =>
      segment ← seg_get (ao_bucket t) i;
      off ← ptrdiff_shift i;
      free (ptr_add segment (wrap (off * ao_element_size t)));;
      arrayof_done_loop n t (i + 1)
  end.

(** tommyarrayof.c:48-57 tommy_arrayof_done *)
Definition arrayof_done (t : arrayof) : M unit :=
  segment ← seg_get (ao_bucket t) 0;
  free segment;;
  arrayof_done_loop (Z.to_nat (ao_bucket_bit t - ARRAYOF_BIT)) t ARRAYOF_BIT.

(** tommyarrayof.c:65-77 the while loop of tommy_arrayof_grow; the product of
    line 73 is computed on tommy_size_t *)
Fixpoint arrayof_grow_loop (fuel : nat) (t : arrayof) (count : Z) : M arrayof :=
  if decide (count > ao_bucket_max t) then
    match fuel with
    | O => fuel_out
    | S fuel =>
        segment ← calloc_bytes (ao_bucket_max t) (ao_element_size t);
        off ← to_ptrdiff (ao_bucket_max t);
        bucket ← seg_set (ao_bucket t) (ao_bucket_bit t)
                   (ptr_add segment (- wrap (off * ao_element_size t)));
        let bucket_bit := ao_bucket_bit t + 1 in
        bucket_max ← size_shift bucket_bit;
        arrayof_grow_loop fuel (ArrayOf bucket (ao_element_size t) bucket_max (ao_count t) bucket_bit) count
    end
  else mret t.

(** tommyarrayof.c:59-78 tommy_arrayof_grow; the loop doubles bucket_max, so 64
    iterations are enough *)
Definition arrayof_grow (t : arrayof) (count : Z) : M arrayof :=
  if decide (ao_count t >= count) then mret t else
  arrayof_grow_loop 64
    (ArrayOf (ao_bucket t) (ao_element_size t) (ao_bucket_max t) count (ao_bucket_bit t)) count.

(** tommyarrayof.c:80-83 tommy_arrayof_memory_usage *)
Definition arrayof_memory_usage (t : arrayof) : Z := wrap (ao_bucket_max t * ao_element_size t).

(** tommyarrayof.h:91-104 tommy_arrayof_ref *)
Definition arrayof_ref (t : arrayof) (pos : Z) : M Z :=
  massert (bool_decide (pos < ao_count t));;
  bsr ← ilog2 (Z.lor pos 1);
  ptr ← seg_get (ao_bucket t) bsr;
  mret (ptr_add ptr (wrap (pos * ao_element_size t))).

(** tommyarrayof.h:109-112 tommy_arrayof_size *)
Definition arrayof_size (t : arrayof) : Z := ao_count t.

(** ** tommyarrayblk *)

(** tommyarrayblk.h:55 *)
Definition ARRAYBLK_SIZE : Z := 4 * 1024.

(** tommyarrayblk.h:61-64 tommy_arrayblk *)
Record arrayblk := ArrayBlk {
  ab_block : array;
  ab_count : Z }.

(** tommyarrayblk.c:33-38 tommy_arrayblk_init *)
Definition arrayblk_init : M arrayblk :=
  block ← array_init;
  mret (ArrayBlk block 0).

(** tommyarrayblk.c:44-45 the for loop of tommy_arrayblk_done, also
    tommyarrayblkof.c:45-46; [n] iterations *)
Fixpoint blocks_free (n : nat) (block : array) (i : Z) : M unit :=
  match n with
  | O => mret tt
  | S n =>
      p ← array_get block i;
      free p;;
      blocks_free n block (add64 i 1)
  end.

(** tommyarrayblk.c:40-48 tommy_arrayblk_done *)
Definition arrayblk_done (t : arrayblk) : M unit :=
  blocks_free (Z.to_nat (array_size (ab_block t))) (ab_block t) 0;;
  array_done (ab_block t).

(** tommyarrayblk.c:67-74 the while loop of tommy_arrayblk_grow, [n] iterations *)
Fixpoint arrayblk_alloc (n : nat) (block : array) (block_mac : Z) : M unit :=
  match n with
  | O => mret tt
  | S n =>
      ptr ← calloc_words ARRAYBLK_SIZE;
      array_set block block_mac ptr;;
      arrayblk_alloc n block (add64 block_mac 1)
  end.

(** tommyarrayblk.c:50-76 tommy_arrayblk_grow *)
Definition arrayblk_grow (t : arrayblk) (count : Z) : M arrayblk :=
  if decide (ab_count t >= count) then mret t else
  let block_max := sub64 (add64 count ARRAYBLK_SIZE) 1 / ARRAYBLK_SIZE in
  let block_mac := array_size (ab_block t) in
  if decide (block_mac < block_max) then
    block ← array_grow (ab_block t) block_max;
    arrayblk_alloc (Z.to_nat (block_max - block_mac)) block block_mac;;
    mret (ArrayBlk block count)
  else mret (ArrayBlk (ab_block t) count).

(** tommyarrayblk.c:78-81 tommy_arrayblk_memory_usage *)
Definition arrayblk_memory_usage (t : arrayblk) : Z :=
  wrap (array_memory_usage (ab_block t) + wrap (array_size (ab_block t) * ARRAYBLK_SIZE * 8)).

(** tommyarrayblk.h:87-96 tommy_arrayblk_ref *)
Definition arrayblk_ref (t : arrayblk) (pos : Z) : M Z :=
  massert (bool_decide (pos < ab_count t));;
  ptr ← array_get (ab_block t) (pos / ARRAYBLK_SIZE);
  mret (ptr_add ptr (8 * (pos mod ARRAYBLK_SIZE))).

(** tommyarrayblk.h:103-106 tommy_arrayblk_set *)
Definition arrayblk_set (t : arrayblk) (pos element : Z) : M unit :=
  p ← arrayblk_ref t pos;
  store p element.

(** tommyarrayblk.h:113-116 tommy_arrayblk_get *)
Definition arrayblk_get (t : arrayblk) (pos : Z) : M Z :=
  p ← arrayblk_ref t pos;
  load p.

(** tommyarrayblk.h:121-128 tommy_arrayblk_insert *)
Definition arrayblk_insert (t : arrayblk) (element : Z) : M arrayblk :=
  let pos := ab_count t in
  t' ← arrayblk_grow t (add64 pos 1);
  arrayblk_set t' pos element;;
  mret t'.

(** tommyarrayblk.h:133-136 tommy_arrayblk_size *)
Definition arrayblk_size (t : arrayblk) : Z := ab_count t.

(** ** tommyarrayblkof *)

(** tommyarrayblkof.h:55 *)
Definition ARRAYBLKOF_SIZE : Z := 4 * 1024.

(** tommyarrayblkof.h:61-65 tommy_arrayblkof *)
Record arrayblkof := ArrayBlkOf {
  abo_block : array;
  abo_element_size : Z;
  abo_count : Z }.

(** tommyarrayblkof.c:33-39 tommy_arrayblkof_init *)
Definition arrayblkof_init (element_size : Z) : M arrayblkof :=
  block ← array_init;
  mret (ArrayBlkOf block element_size 0).

(** tommyarrayblkof.c:41-49 tommy_arrayblkof_done *)
Definition arrayblkof_done (t : arrayblkof) : M unit :=
  blocks_free (Z.to_nat (array_size (abo_block t))) (abo_block t) 0;;
  array_done (abo_block t).

(** tommyarrayblkof.c:68-75 the while loop of tommy_arrayblkof_grow, [n]
    iterations *)
Definition arrayblkof_alloc (element_size : Z) : nat -> array -> Z -> M unit :=
  fix loop (n : nat) (block : array) (block_mac : Z) : M unit :=
  match n with
  | O => mret tt
  | S n =>
      ptr ← calloc_bytes ARRAYBLKOF_SIZE element_size;
      array_set block block_mac ptr;;
      loop n block (add64 block_mac 1)
  end.

(** tommyarrayblkof.c:51-77 tommy_arrayblkof_grow *)
Definition arrayblkof_grow (t : arrayblkof) (count : Z) : M arrayblkof :=
  if decide (abo_count t >= count) then mret t else
  let block_max := sub64 (add64 count ARRAYBLKOF_SIZE) 1 / ARRAYBLKOF_SIZE in
  let block_mac := array_size (abo_block t) in
  if decide (block_mac < block_max) then
    block ← array_grow (abo_block t) block_max;
    arrayblkof_alloc (abo_element_size t) (Z.to_nat (block_max - block_mac)) block block_mac;;
    mret (ArrayBlkOf block (abo_element_size t) count)
  else mret (ArrayBlkOf (abo_block t) (abo_element_size t) count).

(** tommyarrayblkof.c:79-82 tommy_arrayblkof_memory_usage *)
Definition arrayblkof_memory_usage (t : arrayblkof) : Z :=
  wrap (array_memory_usage (abo_block t) +
        wrap (array_size (abo_block t) * ARRAYBLKOF_SIZE * abo_element_size t)).

(** tommyarrayblkof.h:89-98 tommy_arrayblkof_ref *)
Definition arrayblkof_ref (t : arrayblkof) (pos : Z) : M Z :=
  massert (bool_decide (pos < abo_count t));;
  base ← array_get (abo_block t) (pos / ARRAYBLKOF_SIZE);
  mret (ptr_add base (wrap ((pos mod ARRAYBLKOF_SIZE) * abo_element_size t))).

(** tommyarrayblkof.h:103-106 tommy_arrayblkof_size *)
Definition arrayblkof_size (t : arrayblkof) : Z := abo_count t.
