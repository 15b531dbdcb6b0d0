(** * Properties C21-C26, C52, C53, C63: the arrays of tommyarray.h/.c,
    tommyarrayof.h/.c, tommyarrayblk.h/.c and tommyarrayblkof.h/.c. *)
From Verif Require Import ArrayProof ArrayOfProof ArrayBlkProof ArrayProps ExamplesArray ArraySwap.
Global Open Scope Z_scope.

(** ** array *)

(** Any client that respects the preconditions gets from every operation the
    answer that the specification [apost] asks for; the run terminates without
    undefined behaviour (unless malloc fails) and writes nothing but blocks that
    it allocates.  [array_end] says that the heap blocks are those of the client
    and of the array, and that the elements are pairwise disjoint, inside the
    blocks of the array, and hold what [apost] says. *)
Theorem C21_array_history : forall live m c,
  heap_live m live -> allowed (apre array_a) (apost array_a) (astate0 live) c ->
  safe (run (astep array_a) None c m) (fun r m' =>
    array_end array_a array_inv live r.1 r.2 m' /\ unchanged_outside [HCTL] m m').
Proof. exact (fun live m c => array_history array_a array_inv live m c (@array_ok)). Qed.
Print Assumptions C21_array_history.
(** size is the length of the expected vector. *)
Theorem C21_array_size : after_any_array_history array_a (fun _ _ tr _ =>
  forall tr0 a tr1, tr = tr0 ++ (ASize, a) :: tr1 -> a = AOWord (Z.of_nat (length (avec tr0)))).
Proof. exact (array_size_vec array_a array_inv (@array_ok)). Qed.
Print Assumptions C21_array_size.
(** get is the entry of the expected vector: the last value set at the
    position, or 0 (for clients that only write with set and insert; writes
    through references are covered by the history theorem). *)
Theorem C21_array_get : after_any_array_history array_a (fun _ _ tr _ =>
  forall tr0 i a tr1, tr = tr0 ++ (AGet i, a) :: tr1 -> Forall (fun x => ~ is_write x) tr0 ->
  exists v, avec tr0 !! Z.to_nat i = Some v /\ a = AOWord v).
Proof. exact (array_get_vec array_a array_inv (@array_ok) eq_refl). Qed.
Print Assumptions C21_array_get.
(** Reading a word of an element gives the last value written there, and 0
    if nothing was written there since init. *)
Theorem C21_array_read : after_any_array_history array_a (fun _ _ tr _ =>
  forall tr0 p a tr1, tr = tr0 ++ (ARead p, a) :: tr1 -> Forall (fun x => ~ is_set x) tr0 ->
  a = AOWord (last_write p tr0)).
Proof. exact (array_read_zero array_a array_inv (@array_ok)). Qed.
Print Assumptions C21_array_read.
(** C22: in the life of an array two references of the same position are the
    same address, and those of different positions are disjoint elements. *)
Theorem C22_array_refs : after_any_array_history array_a (fun _ _ tr _ =>
  forall tr0 i p tr1 j q tr2,
  tr = tr0 ++ (ARef i, AOWord p) :: tr1 ++ (ARef j, AOWord q) :: tr2 ->
  Forall (fun x => ~ is_reset x) tr1 -> 0 <= i -> 0 <= j ->
  if decide (i = j) then p = q else apart p (elem_bytes array_a tr0) q (elem_bytes array_a tr0)).
Proof. exact (array_refs array_a array_inv (@array_ok)). Qed.
Print Assumptions C22_array_refs.
(** C22: while the array lives, the element is inside a live heap block that
    the array allocated. *)
Theorem C22_array_ref_inside : after_any_array_history array_a (fun live _ tr m' =>
  forall tr0 i p tr1, tr = tr0 ++ (ARef i, AOWord p) :: tr1 -> Forall (fun x => ~ is_reset x) tr1 ->
  exists blocks b r, heap_live m' blocks /\ live ⊆ blocks /\ live !! b = None /\ blocks !! b = Some r /\
    b <= p /\ p + elem_bytes array_a tr0 <= b + region_bytes r).
Proof. exact (array_ref_inside array_a array_inv (@array_ok)). Qed.
Print Assumptions C22_array_ref_inside.
(** C26: after done the live heap blocks are those of the client.  A double
    free or a free of anything but a live block is undefined behaviour, which
    the history theorem excludes. *)
Theorem C26_array_done : after_any_array_history array_a (fun live cs tr m' =>
  forall tr0 a, tr = tr0 ++ [(ADone, a)] -> cs = None /\ heap_live m' live).
Proof. exact (array_done_heap array_a array_inv (@array_ok)). Qed.
Print Assumptions C26_array_done.
(** C52: memory_usage is the number of bytes that the array holds. *)
Theorem C52_array_usage : after_any_array_history array_a (fun live cs tr m' =>
  forall tr0 a, tr = tr0 ++ [(AUsage, a)] ->
  exists own, heap_live m' (own ∪ live) /\ own ##ₘ live /\ a = AOWord (heap_bytes own)).
Proof. exact (array_usage array_a array_inv (@array_ok)). Qed.
Print Assumptions C52_array_usage.
Example C21_array_heap_example : heap_live exa_m exa_live.
Proof. exact exa_heap. Qed.
Example C21_array_client_example : allowed (apre array_a) (apost array_a) (astate0 exa_live) (exa_client 4200).
Proof. exact exa_allowed. Qed.
Example C21_array_run_example : exa_answers array_a (exa_client 300) =
  Some ([7; 0; 5; 6; 8; 65536; 131072; 131080; 70; 1024; 6; 0; 2; 3; 65536; 131072; 301; 4096], true).
Proof. exact exa_array_run. Qed.

(** ** arrayof *)

(** Any client that respects the preconditions gets from every operation the
    answer that the specification [apost] asks for; the run terminates without
    undefined behaviour (unless malloc fails) and writes nothing but blocks that
    it allocates.  [array_end] says that the heap blocks are those of the client
    and of the array, and that the elements are pairwise disjoint, inside the
    blocks of the array, and hold what [apost] says. *)
Theorem C23_arrayof_history : forall live m c,
  heap_live m live -> allowed (apre arrayof_a) (apost arrayof_a) (astate0 live) c ->
  safe (run (astep arrayof_a) None c m) (fun r m' =>
    array_end arrayof_a arrayof_inv live r.1 r.2 m' /\ unchanged_outside [HCTL] m m').
Proof. exact (fun live m c => array_history arrayof_a arrayof_inv live m c (@arrayof_ok)). Qed.
Print Assumptions C23_arrayof_history.
(** size is the length of the expected vector. *)
Theorem C23_arrayof_size : after_any_array_history arrayof_a (fun _ _ tr _ =>
  forall tr0 a tr1, tr = tr0 ++ (ASize, a) :: tr1 -> a = AOWord (Z.of_nat (length (avec tr0)))).
Proof. exact (array_size_vec arrayof_a arrayof_inv (@arrayof_ok)). Qed.
Print Assumptions C23_arrayof_size.
(** Reading a byte of an element gives the last value written there, and 0
    if nothing was written there since init. *)
Theorem C23_arrayof_read : after_any_array_history arrayof_a (fun _ _ tr _ =>
  forall tr0 p a tr1, tr = tr0 ++ (ARead p, a) :: tr1 -> Forall (fun x => ~ is_set x) tr0 ->
  a = AOWord (last_write p tr0)).
Proof. exact (array_read_zero arrayof_a arrayof_inv (@arrayof_ok)). Qed.
Print Assumptions C23_arrayof_read.
(** C22: in the life of an array two references of the same position are the
    same address, and those of different positions are disjoint elements. *)
Theorem C22_arrayof_refs : after_any_array_history arrayof_a (fun _ _ tr _ =>
  forall tr0 i p tr1 j q tr2,
  tr = tr0 ++ (ARef i, AOWord p) :: tr1 ++ (ARef j, AOWord q) :: tr2 ->
  Forall (fun x => ~ is_reset x) tr1 -> 0 <= i -> 0 <= j ->
  if decide (i = j) then p = q else apart p (elem_bytes arrayof_a tr0) q (elem_bytes arrayof_a tr0)).
Proof. exact (array_refs arrayof_a arrayof_inv (@arrayof_ok)). Qed.
Print Assumptions C22_arrayof_refs.
(** C22: while the array lives, the element is inside a live heap block that
    the array allocated. *)
Theorem C22_arrayof_ref_inside : after_any_array_history arrayof_a (fun live _ tr m' =>
  forall tr0 i p tr1, tr = tr0 ++ (ARef i, AOWord p) :: tr1 -> Forall (fun x => ~ is_reset x) tr1 ->
  exists blocks b r, heap_live m' blocks /\ live ⊆ blocks /\ live !! b = None /\ blocks !! b = Some r /\
    b <= p /\ p + elem_bytes arrayof_a tr0 <= b + region_bytes r).
Proof. exact (array_ref_inside arrayof_a arrayof_inv (@arrayof_ok)). Qed.
Print Assumptions C22_arrayof_ref_inside.
(** C26: after done the live heap blocks are those of the client.  A double
    free or a free of anything but a live block is undefined behaviour, which
    the history theorem excludes. *)
Theorem C26_arrayof_done : after_any_array_history arrayof_a (fun live cs tr m' =>
  forall tr0 a, tr = tr0 ++ [(ADone, a)] -> cs = None /\ heap_live m' live).
Proof. exact (array_done_heap arrayof_a arrayof_inv (@arrayof_ok)). Qed.
Print Assumptions C26_arrayof_done.
(** C52: memory_usage is the number of bytes that the array holds. *)
Theorem C52_arrayof_usage : after_any_array_history arrayof_a (fun live cs tr m' =>
  forall tr0 a, tr = tr0 ++ [(AUsage, a)] ->
  exists own, heap_live m' (own ∪ live) /\ own ##ₘ live /\ a = AOWord (heap_bytes own)).
Proof. exact (array_usage arrayof_a arrayof_inv (@arrayof_ok)). Qed.
Print Assumptions C52_arrayof_usage.
Example C23_arrayof_heap_example : heap_live exa_m exa_live.
Proof. exact exa_heap. Qed.
Example C23_arrayof_client_example : allowed (apre arrayof_a) (apost arrayof_a) (astate0 exa_live) (exa_bytes 3 200).
Proof. exact exa_arrayof_allowed. Qed.
Example C23_arrayof_run_example : exa_answers arrayof_a (exa_bytes 3 200) =
  Some ([131087; 9; 0; 9; 131087; 196821; 0; 200; 768], true).
Proof. exact exa_arrayof_run. Qed.

(** ** arrayblk *)

(** Any client that respects the preconditions gets from every operation the
    answer that the specification [apost] asks for; the run terminates without
    undefined behaviour (unless malloc fails) and writes nothing but blocks that
    it allocates.  [array_end] says that the heap blocks are those of the client
    and of the array, and that the elements are pairwise disjoint, inside the
    blocks of the array, and hold what [apost] says. *)
Theorem C24_arrayblk_history : forall live m c,
  heap_live m live -> allowed (apre arrayblk_a) (apost arrayblk_a) (astate0 live) c ->
  safe (run (astep arrayblk_a) None c m) (fun r m' =>
    array_end arrayblk_a arrayblk_inv live r.1 r.2 m' /\ unchanged_outside [HCTL] m m').
Proof. exact (fun live m c => array_history arrayblk_a arrayblk_inv live m c (@arrayblk_ok)). Qed.
Print Assumptions C24_arrayblk_history.
(** size is the length of the expected vector. *)
Theorem C24_arrayblk_size : after_any_array_history arrayblk_a (fun _ _ tr _ =>
  forall tr0 a tr1, tr = tr0 ++ (ASize, a) :: tr1 -> a = AOWord (Z.of_nat (length (avec tr0)))).
Proof. exact (array_size_vec arrayblk_a arrayblk_inv (@arrayblk_ok)). Qed.
Print Assumptions C24_arrayblk_size.
(** get is the entry of the expected vector: the last value set at the
    position, or 0 (for clients that only write with set and insert; writes
    through references are covered by the history theorem). *)
Theorem C24_arrayblk_get : after_any_array_history arrayblk_a (fun _ _ tr _ =>
  forall tr0 i a tr1, tr = tr0 ++ (AGet i, a) :: tr1 -> Forall (fun x => ~ is_write x) tr0 ->
  exists v, avec tr0 !! Z.to_nat i = Some v /\ a = AOWord v).
Proof. exact (array_get_vec arrayblk_a arrayblk_inv (@arrayblk_ok) eq_refl). Qed.
Print Assumptions C24_arrayblk_get.
(** Reading a word of an element gives the last value written there, and 0
    if nothing was written there since init. *)
Theorem C24_arrayblk_read : after_any_array_history arrayblk_a (fun _ _ tr _ =>
  forall tr0 p a tr1, tr = tr0 ++ (ARead p, a) :: tr1 -> Forall (fun x => ~ is_set x) tr0 ->
  a = AOWord (last_write p tr0)).
Proof. exact (array_read_zero arrayblk_a arrayblk_inv (@arrayblk_ok)). Qed.
Print Assumptions C24_arrayblk_read.
(** The elements take less than one block of 4096 more than the size; the
    table of block pointers has at most 64 or twice as many entries as blocks. *)
Theorem C24_arrayblk_memory : after_any_array_history arrayblk_a (fun _ cs tr _ => forall st, cs = Some st ->
  exists k blocks cap, elem_bytes arrayblk_a tr = k /\
    let n := Z.of_nat (length (avec tr)) in
    n <= 4096 * blocks < n + 4096 /\ 0 <= blocks <= cap /\ (cap = 64 \/ cap < 2 * blocks) /\
    arrayblk_memory_usage st = 8 * cap + k * 4096 * blocks).
Proof. exact arrayblk_memory. Qed.
Print Assumptions C24_arrayblk_memory.
(** C22: in the life of an array two references of the same position are the
    same address, and those of different positions are disjoint elements. *)
Theorem C22_arrayblk_refs : after_any_array_history arrayblk_a (fun _ _ tr _ =>
  forall tr0 i p tr1 j q tr2,
  tr = tr0 ++ (ARef i, AOWord p) :: tr1 ++ (ARef j, AOWord q) :: tr2 ->
  Forall (fun x => ~ is_reset x) tr1 -> 0 <= i -> 0 <= j ->
  if decide (i = j) then p = q else apart p (elem_bytes arrayblk_a tr0) q (elem_bytes arrayblk_a tr0)).
Proof. exact (array_refs arrayblk_a arrayblk_inv (@arrayblk_ok)). Qed.
Print Assumptions C22_arrayblk_refs.
(** C22: while the array lives, the element is inside a live heap block that
    the array allocated. *)
Theorem C22_arrayblk_ref_inside : after_any_array_history arrayblk_a (fun live _ tr m' =>
  forall tr0 i p tr1, tr = tr0 ++ (ARef i, AOWord p) :: tr1 -> Forall (fun x => ~ is_reset x) tr1 ->
  exists blocks b r, heap_live m' blocks /\ live ⊆ blocks /\ live !! b = None /\ blocks !! b = Some r /\
    b <= p /\ p + elem_bytes arrayblk_a tr0 <= b + region_bytes r).
Proof. exact (array_ref_inside arrayblk_a arrayblk_inv (@arrayblk_ok)). Qed.
Print Assumptions C22_arrayblk_ref_inside.
(** C26: after done the live heap blocks are those of the client.  A double
    free or a free of anything but a live block is undefined behaviour, which
    the history theorem excludes. *)
Theorem C26_arrayblk_done : after_any_array_history arrayblk_a (fun live cs tr m' =>
  forall tr0 a, tr = tr0 ++ [(ADone, a)] -> cs = None /\ heap_live m' live).
Proof. exact (array_done_heap arrayblk_a arrayblk_inv (@arrayblk_ok)). Qed.
Print Assumptions C26_arrayblk_done.
(** C52: memory_usage is the number of bytes that the array holds. *)
Theorem C52_arrayblk_usage : after_any_array_history arrayblk_a (fun live cs tr m' =>
  forall tr0 a, tr = tr0 ++ [(AUsage, a)] ->
  exists own, heap_live m' (own ∪ live) /\ own ##ₘ live /\ a = AOWord (heap_bytes own)).
Proof. exact (array_usage arrayblk_a arrayblk_inv (@arrayblk_ok)). Qed.
Print Assumptions C52_arrayblk_usage.
Example C24_arrayblk_heap_example : heap_live exa_m exa_live.
Proof. exact exa_heap. Qed.
Example C24_arrayblk_client_example : allowed (apre arrayblk_a) (apost arrayblk_a) (astate0 exa_live) (exa_client 4200).
Proof. exact exa_allowed_blk. Qed.
Example C24_arrayblk_run_example : exa_answers arrayblk_a (exa_client 300) =
  Some ([7; 0; 5; 6; 8; 131072; 131584; 131592; 70; 33280; 6; 0; 2; 3; 131072; 131584; 301; 33280], true).
Proof. exact exa_arrayblk_run. Qed.

(** ** arrayblkof *)

(** Any client that respects the preconditions gets from every operation the
    answer that the specification [apost] asks for; the run terminates without
    undefined behaviour (unless malloc fails) and writes nothing but blocks that
    it allocates.  [array_end] says that the heap blocks are those of the client
    and of the array, and that the elements are pairwise disjoint, inside the
    blocks of the array, and hold what [apost] says. *)
Theorem C25_arrayblkof_history : forall live m c,
  heap_live m live -> allowed (apre arrayblkof_a) (apost arrayblkof_a) (astate0 live) c ->
  safe (run (astep arrayblkof_a) None c m) (fun r m' =>
    array_end arrayblkof_a arrayblkof_inv live r.1 r.2 m' /\ unchanged_outside [HCTL] m m').
Proof. exact (fun live m c => array_history arrayblkof_a arrayblkof_inv live m c (@arrayblkof_ok)). Qed.
Print Assumptions C25_arrayblkof_history.
(** size is the length of the expected vector. *)
Theorem C25_arrayblkof_size : after_any_array_history arrayblkof_a (fun _ _ tr _ =>
  forall tr0 a tr1, tr = tr0 ++ (ASize, a) :: tr1 -> a = AOWord (Z.of_nat (length (avec tr0)))).
Proof. exact (array_size_vec arrayblkof_a arrayblkof_inv (@arrayblkof_ok)). Qed.
Print Assumptions C25_arrayblkof_size.
(** Reading a byte of an element gives the last value written there, and 0
    if nothing was written there since init. *)
Theorem C25_arrayblkof_read : after_any_array_history arrayblkof_a (fun _ _ tr _ =>
  forall tr0 p a tr1, tr = tr0 ++ (ARead p, a) :: tr1 -> Forall (fun x => ~ is_set x) tr0 ->
  a = AOWord (last_write p tr0)).
Proof. exact (array_read_zero arrayblkof_a arrayblkof_inv (@arrayblkof_ok)). Qed.
Print Assumptions C25_arrayblkof_read.
(** The elements take less than one block of 4096 more than the size; the
    table of block pointers has at most 64 or twice as many entries as blocks. *)
Theorem C25_arrayblkof_memory : after_any_array_history arrayblkof_a (fun _ cs tr _ => forall st, cs = Some st ->
  exists k blocks cap, elem_bytes arrayblkof_a tr = k /\
    let n := Z.of_nat (length (avec tr)) in
    n <= 4096 * blocks < n + 4096 /\ 0 <= blocks <= cap /\ (cap = 64 \/ cap < 2 * blocks) /\
    arrayblkof_memory_usage st = 8 * cap + k * 4096 * blocks).
Proof. exact arrayblkof_memory. Qed.
Print Assumptions C25_arrayblkof_memory.
(** C22: in the life of an array two references of the same position are the
    same address, and those of different positions are disjoint elements. *)
Theorem C22_arrayblkof_refs : after_any_array_history arrayblkof_a (fun _ _ tr _ =>
  forall tr0 i p tr1 j q tr2,
  tr = tr0 ++ (ARef i, AOWord p) :: tr1 ++ (ARef j, AOWord q) :: tr2 ->
  Forall (fun x => ~ is_reset x) tr1 -> 0 <= i -> 0 <= j ->
  if decide (i = j) then p = q else apart p (elem_bytes arrayblkof_a tr0) q (elem_bytes arrayblkof_a tr0)).
Proof. exact (array_refs arrayblkof_a arrayblkof_inv (@arrayblkof_ok)). Qed.
Print Assumptions C22_arrayblkof_refs.
(** C22: while the array lives, the element is inside a live heap block that
    the array allocated. *)
Theorem C22_arrayblkof_ref_inside : after_any_array_history arrayblkof_a (fun live _ tr m' =>
  forall tr0 i p tr1, tr = tr0 ++ (ARef i, AOWord p) :: tr1 -> Forall (fun x => ~ is_reset x) tr1 ->
  exists blocks b r, heap_live m' blocks /\ live ⊆ blocks /\ live !! b = None /\ blocks !! b = Some r /\
    b <= p /\ p + elem_bytes arrayblkof_a tr0 <= b + region_bytes r).
Proof. exact (array_ref_inside arrayblkof_a arrayblkof_inv (@arrayblkof_ok)). Qed.
Print Assumptions C22_arrayblkof_ref_inside.
(** C26: after done the live heap blocks are those of the client.  A double
    free or a free of anything but a live block is undefined behaviour, which
    the history theorem excludes. *)
Theorem C26_arrayblkof_done : after_any_array_history arrayblkof_a (fun live cs tr m' =>
  forall tr0 a, tr = tr0 ++ [(ADone, a)] -> cs = None /\ heap_live m' live).
Proof. exact (array_done_heap arrayblkof_a arrayblkof_inv (@arrayblkof_ok)). Qed.
Print Assumptions C26_arrayblkof_done.
(** C52: memory_usage is the number of bytes that the array holds. *)
Theorem C52_arrayblkof_usage : after_any_array_history arrayblkof_a (fun live cs tr m' =>
  forall tr0 a, tr = tr0 ++ [(AUsage, a)] ->
  exists own, heap_live m' (own ∪ live) /\ own ##ₘ live /\ a = AOWord (heap_bytes own)).
Proof. exact (array_usage arrayblkof_a arrayblkof_inv (@arrayblkof_ok)). Qed.
Print Assumptions C52_arrayblkof_usage.
Example C25_arrayblkof_heap_example : heap_live exa_m exa_live.
Proof. exact exa_heap. Qed.
Example C25_arrayblkof_client_example : allowed (apre arrayblkof_a) (apost arrayblkof_a) (astate0 exa_live) (exa_bytes 1 5000).
Proof. exact exa_arrayblkof_allowed. Qed.
Example C25_arrayblkof_run_example : exa_answers arrayblkof_a (exa_bytes 1 100) =
  Some ([131141; 9; 9; 9; 131141; 131171; 0; 100; 4608], true).
Proof. exact exa_arrayblkof_run. Qed.

(** ** C53: requests close to 2^64 *)

(** The claim "after grow(n) every position below n has an element" fails for
    the blocked array when n > 2^64 - 4096: the sum count + 4095 wraps, no block
    is allocated, the size is n, and the reference of position 0 fails the
    assertion of tommy_array_ref. *)
Theorem C53_arrayblk_grow_refuted : ~ (forall st n m st' m' i,
  array_size (ab_block st) = 0 -> ab_count st = 0 -> 0 <= n < 2 ^ 64 ->
  arrayblk_grow st n m = Ok st' m' -> 0 <= i < n -> arrayblk_ref st' i m' <> UB).
Proof. exact arrayblk_grow_refuted. Qed.
Print Assumptions C53_arrayblk_grow_refuted.
Theorem C53_arrayblk_grow_wraps : forall st n m,
  array_size (ab_block st) = 0 -> ab_count st = 0 -> 2 ^ 64 - 4095 <= n < 2 ^ 64 ->
  arrayblk_grow st n m = Ok (ArrayBlk (ab_block st) n) m /\
  arrayblk_size (ArrayBlk (ab_block st) n) = n /\
  arrayblk_ref (ArrayBlk (ab_block st) n) 0 m = UB.
Proof. exact arrayblk_grow_wraps. Qed.
Print Assumptions C53_arrayblk_grow_wraps.
Example C53_example : exists st m, arrayblk_init exa_m = Ok st m /\ array_size (ab_block st) = 0 /\ ab_count st = 0.
Proof. exact arrayblk_init_wraps. Qed.

(** ** C63: the arrays of pointers are interchangeable

    A client that uses grow, size, set, get and insert, and decides each
    operation from the answers so far, gets from tommy_array and from
    tommy_arrayblk the same answers: those of a vector kept in a list. *)
Theorem C63_vectors : forall T live m k c,
  a_vector T -> heap_live m live -> 1 <= k < 2 ^ 64 -> vec_allowed [] c ->
  safe (run (astep T) None (Do (AInit k) (fun _ => c)) m) (fun r _ => r.2.*2 = AONone :: vec_reference [] c).
Proof. exact vectors_interchangeable. Qed.
Print Assumptions C63_vectors.
Example C63_premises : heap_live exa_m exa_live /\ vec_allowed [] vec_client.
Proof. exact (conj exa_heap vec_client_ok). Qed.
Example C63_example : vec_answers_of array_a = vec_expected /\ vec_answers_of arrayblk_a = vec_expected /\
  AONone :: vec_reference [] vec_client = vec_expected.
Proof. exact vec_run. Qed.
