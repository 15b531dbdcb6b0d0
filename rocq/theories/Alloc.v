(** * Model of tommyalloc.h and tommyalloc.c: the allocator of fixed size
    blocks. *)
From Verif Require Export Array.
Global Open Scope Z_scope.

(** tommyalloc.h:51-57 tommy_allocator.  The struct is not address-taken by the
    allocator itself: a record. *)
Record allocator := Allocator {
  al_free_block : Z;
  al_used_segment : Z;
  al_block_size : Z;
  al_align_size : Z;
  al_count : Z }.

(** tommyalloc.c:38 *)
Definition ALLOCATOR_BLOCK_SIZE : Z := 4096 - 64.

(** tommyalloc.c:40-56 tommy_allocator_init *)
Definition allocator_init (block_size align_size : Z) : allocator :=
  let align_size := if decide (align_size < 8) then 8 else align_size in
  let block_size :=
    if decide (block_size mod align_size <> 0)
    then add64 block_size (sub64 align_size (block_size mod align_size)) else block_size in
  Allocator 0 0 block_size align_size 0.

(** tommyalloc.c:65-69, loop of allocator_reset *)
Fixpoint allocator_reset_loop (fuel : nat) (block : Z) : M unit :=
  if decide (block = null) then mret tt else
  match fuel with
  | O => fuel_out
  | S fuel =>
      block_next ← load block;
      free block;;
      allocator_reset_loop fuel block_next
  end.

(** tommyalloc.c:61-74 allocator_reset.  The fuel is the number of cells in the
    memory: each iteration frees at least one. *)
Definition allocator_reset (t : allocator) : M allocator := fun m =>
  (allocator_reset_loop (size m) (al_used_segment t);;
   mret (Allocator 0 0 (al_block_size t) (al_align_size t) 0)) m.

(** tommyalloc.c:76-79 tommy_allocator_done *)
Definition allocator_done (t : allocator) : M allocator := allocator_reset t.

(** tommyalloc.c:116-123, do-while loop of tommy_allocator_alloc; returns the
    new free_block *)
Fixpoint allocator_carve (fuel : nat) (block_size data size free_block : Z) : M Z :=
  match fuel with
  | O => fuel_out
  | S fuel =>
      store data free_block;;
      let free_block := data in
      let data := ptr_add data block_size in
      let size := sub64 size block_size in
      if decide (size >= block_size) then allocator_carve fuel block_size data size free_block
      else mret free_block
  end.

(** tommyalloc.c:87-123, the body of the first if of tommy_allocator_alloc.
    Each iteration of the loop takes [block_size] out of [size], which bounds
    the number of iterations when [block_size] is not 0. *)
Definition allocator_refill (t : allocator) : M allocator :=
  let size := ALLOCATOR_BLOCK_SIZE in
  let want := add64 (add64 8 (al_align_size t)) (al_block_size t) in
  let size := if decide (size < want) then want else size in
  data ← malloc size;
  let segment := data in
  store segment (al_used_segment t);;
  let data := ptr_add data 8 in
  let mis := data mod al_align_size t in
  let pad := sub64 (al_align_size t) mis in
  let size' := if decide (mis <> 0) then sub64 size pad else size in
  let data := if decide (mis <> 0) then ptr_add data pad else data in
  free_block ← allocator_carve (Z.to_nat size') (al_block_size t) data size' (al_free_block t);
  mret (Allocator free_block segment (al_block_size t) (al_align_size t) (al_count t)).

(** tommyalloc.c:81-133 tommy_allocator_alloc *)
Definition allocator_alloc (t : allocator) : M (Z * allocator) :=
  t ← (if decide (al_free_block t = null) then allocator_refill t else mret t);
  let ptr := al_free_block t in
  next ← load ptr;
  mret (ptr, Allocator next (al_used_segment t) (al_block_size t) (al_align_size t) (add64 (al_count t) 1)).

(** tommyalloc.c:135-144 tommy_allocator_free *)
Definition allocator_free (t : allocator) (ptr : Z) : M allocator :=
  store ptr (al_free_block t);;
  mret (Allocator ptr (al_used_segment t) (al_block_size t) (al_align_size t) (sub64 (al_count t) 1)).

(** tommyalloc.c:146-149 tommy_allocator_memory_usage *)
Definition allocator_memory_usage (t : allocator) : Z := wrap (al_count t * al_block_size t).
