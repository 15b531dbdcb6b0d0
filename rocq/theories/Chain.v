(** * Model of tommychain.h (chains, merge sort) and tommylist.c (list sort).

    A [tommy_chain] (tommychain.h:52-55) is a local struct whose address never
    escapes; it is a Gallina pair (head, tail).  The comparison function is a
    computation [cmp : Z -> Z -> M Z] supplied by the client. *)
From Verif Require Export List Bits.
Global Open Scope Z_scope.

Notation chain := (Z * Z)%type (only parsing).

(** tommychain.h:60-69 tommy_chain_splice *)
Definition chain_splice (first_before first_after second_head second_tail : Z) : M unit :=
  store (f_prev first_after) second_tail;;
  store (f_prev second_head) first_before;;
  store (f_next first_before) second_head;;
  store (f_next second_tail) first_after.

(** tommychain.h:74-81 tommy_chain_concat *)
Definition chain_concat (first_tail second_head : Z) : M unit :=
  store (f_prev second_head) first_tail;;
  store (f_next first_tail) second_head.

(** tommychain.h:92-112 the loop of tommy_chain_merge; the result is the new
    value of [*first] ([*second] is not modified by the code). *)
Fixpoint chain_merge_loop (fuel : nat) (cmp : Z -> Z -> M Z)
    (first_i second_i first_head first_tail second_tail : Z) : M (Z * Z) :=
  match fuel with
  | O => fuel_out
  | S fuel =>
      d1 ← load (f_data first_i);
      d2 ← load (f_data second_i);
      r ← cmp d1 d2;
      if decide (r > 0) then
        next ← load (f_next second_i);
        first_head' ←
          (if decide (first_i = first_head) then
             chain_concat second_i first_i;;
             mret second_i
           else
             p ← load (f_prev first_i);
             chain_splice p first_i second_i second_i;;
             mret first_head);
        if decide (second_i = second_tail) then mret (first_head', first_tail)
        else chain_merge_loop fuel cmp first_i next first_head' first_tail second_tail
      else
        if decide (first_i = first_tail) then
          chain_concat first_i second_i;;
          mret (first_head, second_tail)
        else
          first_i' ← load (f_next first_i);
          chain_merge_loop fuel cmp first_i' second_i first_head first_tail second_tail
  end.

(** tommychain.h:86-113 tommy_chain_merge *)
Definition chain_merge (fuel : nat) (first second : Z * Z) (cmp : Z -> Z -> M Z) : M (Z * Z) :=
  chain_merge_loop fuel cmp first.1 second.1 first.1 first.2 second.2.

(** tommychain.h:119-137 tommy_chain_merge_degenerated *)
Definition chain_merge_degenerated (fuel : nat) (first second : Z * Z) (cmp : Z -> Z -> M Z) : M (Z * Z) :=
  d1 ← load (f_data first.2);
  d2 ← load (f_data second.1);
  r ← cmp d1 d2;
  if decide (r <= 0) then
    chain_concat first.2 second.1;;
    mret (first.1, second.2)
  else
    d3 ← load (f_data second.2);
    d4 ← load (f_data first.1);
    r ← cmp d3 d4;
    if decide (r < 0) then
      chain_concat second.2 first.1;;
      mret (second.1, first.2)
    else chain_merge fuel first second cmp.

(** tommychain.h:159 [tommy_chain bit[TOMMY_SIZE_BIT + 1]], initially not
    initialised.  Reading an entry that was not written and any index past the
    end are undefined behaviour. *)
Definition bits := list (option (Z * Z)).
Definition bits_new : bits := replicate 65 None.
Definition bit_get (bit : bits) (i : Z) : M (Z * Z) :=
  match bit !! Z.to_nat i with Some (Some c) => mret c | _ => ub end.
Definition bit_set (bit : bits) (i : Z) (c : Z * Z) : M bits :=
  if decide (Z.to_nat i < length bit)%nat then mret (<[Z.to_nat i := Some c]> bit) else ub.

(** tommychain.h:185-190 the carry loop.  [last] is the index in [bit] of the
    pointer of the same name. *)
Fixpoint chain_carry_loop (fuel : nat) (cmp : Z -> Z -> M Z) (lfuel : nat)
    (i mask last : Z) (bit : bits) : M (Z * Z * bits) :=
  if decide (Z.land mask 1 ≠ 0) then
    match lfuel with
    | O => fuel_out
    | S lfuel =>
        first ← bit_get bit i;
        second ← bit_get bit last;
        first' ← chain_merge_degenerated fuel first second cmp;
        bit' ← bit_set bit i first';
        chain_carry_loop fuel cmp lfuel (wrap (i + 1)) (shr mask 1) i bit'
    end
  else mret (i, last, bit).

(** tommychain.h:173-193 the body of the main loop: add one node to the buckets *)
Definition chain_add (fuel : nat) (cmp : Z -> Z -> M Z) (counter node : Z) (bit : bits) : M bits :=
  bit1 ← bit_set bit 64 (node, node);
  '(i, last, bit2) ← chain_carry_loop fuel cmp 65 0 counter 64 bit1;
  c ← bit_get bit2 last;
  bit_set bit2 i c.

(** tommychain.h:172-201 the main loop *)
Fixpoint chain_add_loop (fuel : nat) (cmp : Z -> Z -> M Z) (lfuel : nat)
    (counter node tail : Z) (bit : bits) : M (Z * bits) :=
  match lfuel with
  | O => fuel_out
  | S lfuel =>
      next ← load (f_next node);
      bit' ← chain_add fuel cmp counter node bit;
      if decide (node = tail) then mret (wrap (counter + 1), bit')
      else chain_add_loop fuel cmp lfuel (wrap (counter + 1)) next tail bit'
  end.

(** tommychain.h:206-213 the final loop *)
Fixpoint chain_final_loop (fuel : nat) (cmp : Z -> Z -> M Z) (lfuel : nat)
    (i mask : Z) (bit : bits) : M (Z * bits) :=
  if decide (mask = 1) then mret (i, bit) else
  match lfuel with
  | O => fuel_out
  | S lfuel =>
      let mask := shr mask 1 in
      bit' ←
        (if decide (Z.land mask 1 ≠ 0) then
           first ← bit_get bit (wrap (i + 1));
           second ← bit_get bit i;
           first' ← chain_merge_degenerated fuel first second cmp;
           bit_set bit (wrap (i + 1)) first'
         else
           c ← bit_get bit i;
           bit_set bit (wrap (i + 1)) c);
      chain_final_loop fuel cmp lfuel (wrap (i + 1)) mask bit'
  end.

(** tommychain.h:151-216 tommy_chain_mergesort; the result is the new value of
    [*chain] *)
Definition chain_mergesort (fuel : nat) (ch : Z * Z) (cmp : Z -> Z -> M Z) : M (Z * Z) :=
  '(counter, bit) ← chain_add_loop fuel cmp fuel 0 ch.1 ch.2 bits_new;
  i ← ctz counter;
  '(i, bit) ← chain_final_loop fuel cmp 65 i (shr counter i) bit;
  bit_get bit i.

(** tommylist.c:34-39 tommy_list_set *)
Definition list_set (l head tail : Z) : M unit :=
  store (f_prev head) tail;;
  store (f_next tail) null;;
  store l head.

(** tommylist.c:41-59 tommy_list_sort *)
Definition list_sort (fuel : nat) (l : Z) (cmp : Z -> Z -> M Z) : M unit :=
  e ← list_empty l;
  if decide (e = true) then mret tt else
  head ← list_head l;
  tail ← load (f_prev head);
  ch ← chain_mergesort fuel (head, tail) cmp;
  list_set l ch.1 ch.2.
