(** * Properties C27, C28, C64: the allocator of tommyalloc.h and tommyalloc.c. *)
From Verif Require Import AllocHist ExamplesAlloc.
Global Open Scope Z_scope.

(** Any client that respects the preconditions [ppre] gets from every operation
    the answer that the specification [ppost] asks for; the run terminates
    without undefined behaviour (unless malloc fails) and writes nothing but
    blocks that it allocates.  [alloc_end] says that the heap blocks are those
    of the client and of the allocator and that the blocks hold what the client
    wrote.  [ppre] asks that the configuration fits: see the refutation below. *)
Theorem C27_alloc_history : forall live m c,
  heap_live m live -> allowed ppre ppost (pstate0 live) c ->
  safe (run pstep None c m) (fun r m' => alloc_end live r.1 r.2 m' /\ unchanged_outside [HCTL] m m').
Proof. exact alloc_history. Qed.
Print Assumptions C27_alloc_history.
(** Every block held at the end of any history is aligned, inside a live heap
    block that is not the client's, and does not overlap another held block. *)
Theorem C27_alloc_blocks : after_any_alloc_history (fun live _ tr m' =>
  let (bs, al) := config tr in
  (forall p, p ∈ held tr -> p mod al = 0 /\
    exists blocks b r, heap_live m' blocks /\ live ⊆ blocks /\ live !! b = None /\ blocks !! b = Some r /\
      b <= p /\ p + bs <= b + region_bytes r) /\
  (forall p q, p ∈ held tr -> q ∈ held tr -> p <> q -> apart p bs q bs)).
Proof. exact alloc_blocks_ok. Qed.
Print Assumptions C27_alloc_blocks.
(** alloc never returns a block that is already held. *)
Theorem C27_alloc_fresh : after_any_alloc_history (fun _ _ tr _ => forall tr0 a tr1,
  tr = tr0 ++ (PAlloc, a) :: tr1 -> exists p, a = POWord p /\ p ∉ held tr0).
Proof. exact alloc_fresh. Qed.
Print Assumptions C27_alloc_fresh.
(** The configurations that fit: the default alignment if the block size does
    not divide 4032 (or is bigger than 4016) ... *)
Theorem C27_fits_align8 : forall bs, 1 <= bs -> bs mod 8 = 0 ->
  config_fits bs 8 <-> 4016 < bs \/ 4032 mod bs <> 0.
Proof. exact fits_align8. Qed.
Print Assumptions C27_fits_align8.
(** ... and any alignment that is a multiple of 16 if header, alignment and
    block are in the default segment. *)
Theorem C27_fits_align16 : forall bs al,
  1 <= bs -> 1 <= al -> al mod 16 = 0 -> bs mod al = 0 -> 8 + al + bs <= 4032 -> config_fits bs al.
Proof. exact fits_align16. Qed.
Print Assumptions C27_fits_align16.
Example C27_heap_example : heap_live exa_m exa_live.
Proof. exact exa_heap. Qed.
Example C27_client_example : allowed ppre ppost (pstate0 exa_live) exp_client.
Proof. exact exp_allowed. Qed.
Example C27_run_example : exp_answers exp_client =
  Some ([69504; 69464; 5; 80; 6; 40; 69504; 135168; 200704; 16384], true).
Proof. exact exp_run. Qed.

(** ** The claim fails for other configurations *)

(** tommy_allocator_alloc divides the whole segment in blocks, header
    included, so the last block can exceed the segment by 8 bytes. *)
Theorem C27_alloc_inside_refuted : ~ (forall bs al m p t' m',
  1 <= bs -> (al < 8 \/ al mod 8 = 0) -> 8 + real_align al + real_size bs al < 2 ^ 64 ->
  allocator_alloc (allocator_init bs al) m = Ok (p, t') m' ->
  p + bs <= al_used_segment t' + segment_size (real_size bs al) (real_align al)).
Proof. exact alloc_inside_refuted. Qed.
Print Assumptions C27_alloc_inside_refuted.
(** Exactly when: the condition [fits_at] of the precondition is necessary.
    The first block that a new allocator returns is inside its segment if and
    only if the configuration fits at the address of the segment. *)
Theorem C27_alloc_first : forall bs al m p t' m',
  16 <= bs -> (al < 8 \/ al mod 8 = 0) -> 8 + real_align al + real_size bs al < 2 ^ 64 ->
  allocator_alloc (allocator_init bs al) m = Ok (p, t') m' ->
  let a := al_used_segment t' in
  p + real_size bs al <= a + segment_size (real_size bs al) (real_align al) <->
  fits_at (real_size bs al) (real_align al) a.
Proof. exact alloc_first. Qed.
Print Assumptions C27_alloc_first.
(** A block size of 0 is accepted by init, and alloc does not return. *)
Theorem C27_carve_zero : forall fuel data size fb m, 0 <= data < 2 ^ 64 -> 0 <= size < 2 ^ 64 ->
  forall p m', allocator_carve fuel 0 data size fb m <> Ok p m'.
Proof. exact carve_zero_diverges. Qed.
Print Assumptions C27_carve_zero.
(** Filling the block overwrites the word (42) of the client that follows the
    segment; with blocks of 8 bytes alloc itself does. *)
Example C27_overflow_heap_example : heap_live exo_m exo_live.
Proof. exact exo_heap. Qed.
Example C27_overflow16_example : exo_result 16 0 [0; 1] = Some (69560, Some 7).
Proof. exact exo_run16. Qed.
Example C27_overflow64_example : exo_result 64 0 [0; 1; 2; 3; 4; 5; 6; 7] = Some (69512, Some 7).
Proof. exact exo_run64. Qed.
Example C27_overflow8_example : exo_result 8 0 [] = Some (69568, Some 69560).
Proof. exact exo_run8. Qed.

(** ** C28 *)

(** memory_usage is the number of blocks held times the block size. *)
Theorem C28_alloc_usage : after_any_alloc_history (fun _ _ tr _ => forall tr0 a tr1,
  tr = tr0 ++ (PUsage, a) :: tr1 -> a = POWord (Z.of_nat (size (held tr0)) * (config tr0).1)).
Proof. exact alloc_usage. Qed.
Print Assumptions C28_alloc_usage.
(** The block freed last is the next one allocated.  That every freed block is
    reused before a new segment is requested is in [ppost] ([ps_freed]). *)
Theorem C28_alloc_reuse : after_any_alloc_history (fun _ _ tr _ => forall tr0 p x tr1 a tr2,
  tr = tr0 ++ (PFree p, x) :: tr1 ++ (PAlloc, a) :: tr2 -> Forall is_access tr1 -> a = POWord p).
Proof. exact alloc_reuse. Qed.
Print Assumptions C28_alloc_reuse.
(** After done the live heap blocks are those of the client: every segment was
    released.  A double free is undefined behaviour, which the history theorem
    excludes. *)
Theorem C28_alloc_done : after_any_alloc_history (fun live _ tr m' => forall tr0 a,
  tr = tr0 ++ [(PDone, a)] -> heap_live m' live).
Proof. exact alloc_done_heap. Qed.
Print Assumptions C28_alloc_done.
Example C28_client_example : allowed ppre ppost (pstate0 exa_live) exp_client.
Proof. exact exp_allowed. Qed.

(** ** C64 *)

(** The allocator asks malloc for no more than the blocks in use need: after any
    history the live heap blocks are those of the client and [n] segments of
    the configured size, and [n - 1] segments would not have had room for the
    most blocks that were held at once since init or done.  That one more
    segment is requested exactly when every block of every segment is held is
    the last clause of [ppost] for [PAlloc] (C27_alloc_history). *)
Theorem C64_alloc_few_segments : after_any_alloc_history (fun live _ tr m' =>
  let (bs, al) := config tr in
  exists blocks, heap_live m' blocks /\ live ⊆ blocks /\
    (blocks = live \/
     (Z.of_nat (size blocks) - Z.of_nat (size live) - 1) * ((segment_size bs al - al) / bs) < peak tr) /\
    forall b r, blocks !! b = Some r -> live !! b = None -> r = RWords (Z.to_nat (segment_size bs al / 8))).
Proof. exact alloc_few. Qed.
Print Assumptions C64_alloc_few_segments.
Example C64_client_example : allowed ppre ppost (pstate0 exa_live) exs_client.
Proof. exact exs_allowed. Qed.
Example C64_run_example : match run pstep None exs_client exa_m with Ok r _ => r.2 = exs_transcript | _ => False end.
Proof. exact exs_run. Qed.
Example C64_peak_example : config exs_transcript = (2000, 8) /\ peak exs_transcript = 3 /\ (segment_size 2000 8 - 8) / 2000 = 2.
Proof. exact exs_peak. Qed.
