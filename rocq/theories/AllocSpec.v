(** * Specification of the allocator of fixed size blocks. *)
From Verif Require Export ArraySpec Alloc.
Global Open Scope Z_scope.

(** ** Operations of a client *)
Inductive pop :=
| PInit (bs al : Z)    (* tommy_allocator_init(alloc, bs, al) *)
| PAlloc               (* tommy_allocator_alloc(alloc) *)
| PFree (p : Z)        (* tommy_allocator_free(alloc, p) *)
| PUsage               (* tommy_allocator_memory_usage(alloc) *)
| PRead (p : Z)        (* read the word at p *)
| PWrite (p v : Z)     (* write the word at p *)
| PDone.               (* tommy_allocator_done(alloc) *)

Inductive pout := PONone | POWord (z : Z).

(** The client's code for each operation; [None]: the struct is not
    initialised. *)
Definition pstep (cs : option allocator) (o : pop) : M (option allocator * pout) :=
  match o, cs with
  | PInit bs al, _ => mret (Some (allocator_init bs al), PONone)
  | _, None => ub
  | PAlloc, Some t => r ← allocator_alloc t; mret (Some r.2, POWord r.1)
  | PFree p, Some t => t' ← allocator_free t p; mret (Some t', PONone)
  | PUsage, Some t => mret (Some t, POWord (allocator_memory_usage t))
  | PRead p, Some t => v ← load p; mret (Some t, POWord v)
  | PWrite p v, Some t => store p v;; mret (Some t, PONone)
  | PDone, Some t => t' ← allocator_done t; mret (Some t', PONone)
  end.

(** ** Configurations *)

(** The alignment that a client gets for requested alignment [al], and the size
    of a block for requested size [bs]: the smallest multiple of the alignment
    that is large enough. *)
Definition real_align (al : Z) : Z := Z.max 8 al.
Definition real_size (bs al : Z) : Z := real_align al * ((bs + real_align al - 1) / real_align al).

(** Bytes requested from malloc for a segment. *)
Definition segment_size (bs al : Z) : Z := Z.max 4032 (8 + al + bs).

(** Bytes skipped after the header of a segment at [a] to reach the alignment. *)
Definition padding (al a : Z) : Z := (- (a + 8)) mod al.

(** The allocator divides the segment without its padding, but with its 8 byte
    header, in blocks of [bs] bytes.  They fit if the remainder leaves room for
    the header, wherever malloc puts the segment. *)
Definition fits_at (bs al a : Z) : Prop := 8 <= (segment_size bs al - padding al a) mod bs.
Definition config_fits (bs al : Z) : Prop :=
  forall a, 0 < a -> a mod 16 = 0 -> fits_at bs al a.

(** How many blocks of [bs] bytes the segment at [a] is divided in, and all the
    segments of the allocator together. *)
Definition segment_blocks (bs al a : Z) : Z := (segment_size bs al - padding al a) / bs.
Definition total_blocks (bs al : Z) (own : gmap Z region) : Z :=
  foldr (fun a n => segment_blocks bs al a + n) 0 (elements (dom own)).

(** ** Abstract state *)
Record pstate := PState {
  ps_cfg : option (Z * Z);                  (* size and alignment of the blocks *)
  ps_blocks : gmap Z (list (option Z));     (* allocated blocks; the words of each, [None] if uninitialised *)
  ps_freed : list Z;                        (* blocks freed and not allocated again, last freed first *)
  ps_own : gmap Z region;                   (* live heap blocks of the allocator *)
  ps_live : gmap Z region }.                (* live heap blocks of the client *)

(** Blocks are aligned, have the right size, are inside the heap blocks of the
    allocator and do not overlap; the heap blocks do not overlap and are not
    those of the client. *)
Definition pwf (bs al : Z) (s : pstate) : Prop :=
  ps_own s ##ₘ ps_live s /\
  (forall b r b' r', ps_own s !! b = Some r -> ps_own s !! b' = Some r' -> b <> b' ->
    apart b (region_bytes r) b' (region_bytes r')) /\
  (forall p vs, ps_blocks s !! p = Some vs ->
    0 < p /\ p mod al = 0 /\ 8 * Z.of_nat (length vs) = bs /\
    exists b r, ps_own s !! b = Some r /\ b <= p /\ p + bs <= b + region_bytes r) /\
  (forall p q vs ws, ps_blocks s !! p = Some vs -> ps_blocks s !! q = Some ws -> p <> q -> apart p bs q bs).

(** What a client may do. *)
Definition ppre (s : pstate) (o : pop) : Prop :=
  match o with
  | PInit bs al =>
      ps_own s = ∅ /\ 1 <= bs /\ (al < 8 \/ al mod 8 = 0) /\
      8 + real_align al + real_size bs al < 2 ^ 64 /\
      config_fits (real_size bs al) (real_align al)
  | PAlloc | PUsage | PDone => is_Some (ps_cfg s)
  | PFree p => is_Some (ps_blocks s !! p)
  | PRead p =>
      exists b vs j v, ps_blocks s !! b = Some vs /\ p = b + 8 * Z.of_nat j /\ vs !! j = Some (Some v)
  | PWrite p _ =>
      exists b vs j, ps_blocks s !! b = Some vs /\ p = b + 8 * Z.of_nat j /\ (j < length vs)%nat
  end.

(** What the answer and the new state must be. *)
Definition ppost (s : pstate) (o : pop) (a : pout) (s' : pstate) : Prop :=
  match o with
  | PInit bs al =>
      a = PONone /\ s' = PState (Some (real_size bs al, real_align al)) ∅ [] ∅ (ps_live s)
  | PAlloc =>
      exists bs al p vs own, ps_cfg s = Some (bs, al) /\ a = POWord p /\ ps_blocks s !! p = None /\
      s' = PState (ps_cfg s) (<[p := vs]> (ps_blocks s)) (tail (ps_freed s)) own (ps_live s) /\
      pwf bs al s' /\
      (* the block freed last is reused *)
      (forall q, head (ps_freed s) = Some q -> p = q /\ own = ps_own s) /\
      (* one segment is requested if all the blocks are in use, none otherwise *)
      (own = ps_own s /\ Z.of_nat (size (ps_blocks s)) < total_blocks bs al (ps_own s) \/
       Z.of_nat (size (ps_blocks s)) = total_blocks bs al (ps_own s) /\
       exists b, ps_own s !! b = None /\
        own = <[b := RWords (Z.to_nat (segment_size bs al / 8))]> (ps_own s))
  | PFree p =>
      a = PONone /\
      s' = PState (ps_cfg s) (delete p (ps_blocks s)) (p :: ps_freed s) (ps_own s) (ps_live s)
  | PUsage =>
      exists bs al, ps_cfg s = Some (bs, al) /\ a = POWord (Z.of_nat (size (ps_blocks s)) * bs) /\ s' = s
  | PRead p =>
      exists b vs j v, ps_blocks s !! b = Some vs /\ p = b + 8 * Z.of_nat j /\ vs !! j = Some (Some v) /\
      a = POWord v /\ s' = s
  | PWrite p v =>
      exists b vs j, ps_blocks s !! b = Some vs /\ p = b + 8 * Z.of_nat j /\ (j < length vs)%nat /\
      a = PONone /\
      s' = PState (ps_cfg s) (<[b := <[j := Some v]> vs]> (ps_blocks s)) (ps_freed s) (ps_own s) (ps_live s)
  | PDone => a = PONone /\ s' = PState (ps_cfg s) ∅ [] ∅ (ps_live s)
  end.

Definition pstate0 (live : gmap Z region) : pstate := PState None ∅ [] ∅ live.

(** Contents of a word of a block *)
Definition word_cell (v : option Z) : cell := match v with Some v => W v | None => U end.

Definition alloc_end (live : gmap Z region) (cs : option allocator) (tr : list (pop * pout)) (m' : mem) : Prop :=
  exists s', correct ppost (pstate0 live) tr s' /\
    heap_live m' (ps_own s' ∪ ps_live s') /\ ps_own s' ##ₘ ps_live s' /\
    (forall p vs j v, ps_blocks s' !! p = Some vs -> vs !! j = Some v ->
       m' !! (p + 8 * Z.of_nat j) = Some (word_cell v)) /\
    match ps_cfg s' with
    | None => cs = None
    | Some (bs, al) => exists t, cs = Some t /\ al_block_size t = bs /\ al_align_size t = al
    end.

(** ** Reading a transcript *)
Definition after_any_alloc_history
    (Q : gmap Z region -> option allocator -> list (pop * pout) -> mem -> Prop) : Prop :=
  forall live m c, heap_live m live -> allowed ppre ppost (pstate0 live) c ->
  safe (run pstep None c m) (fun r m' => Q live r.1 r.2 m').

(** The blocks allocated and not freed, from the transcript alone. *)
Definition held_step (bs : gset Z) (x : pop * pout) : gset Z :=
  match x with
  | (PAlloc, POWord p) => {[p]} ∪ bs
  | (PFree p, _) => bs ∖ {[p]}
  | (PDone, _) | (PInit _ _, _) => ∅
  | _ => bs
  end.
Definition held (tr : list (pop * pout)) : gset Z := foldl held_step ∅ tr.

(** Size and alignment of the last init. *)
Definition config (tr : list (pop * pout)) : Z * Z :=
  foldl (fun c x => match x.1 with PInit bs al => (real_size bs al, real_align al) | _ => c end) (0, 0) tr.

(** The most blocks held at the same time since the last init or done. *)
Definition peak_step (h : gset Z * Z) (x : pop * pout) : gset Z * Z :=
  let held := held_step h.1 x in
  (held, match x.1 with PInit _ _ | PDone => 0 | _ => Z.max h.2 (Z.of_nat (size held)) end).
Definition peak (tr : list (pop * pout)) : Z := (foldl peak_step (∅, 0) tr).2.
