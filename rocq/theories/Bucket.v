(** * Loops over hash buckets, the same text in the three hash tables. *)
From Verif Require Export List Bits.
Global Open Scope Z_scope.

(** memset(a, 0, n * sizeof(void* )) of <string.h> on [n] words. *)
Fixpoint memset0 (a : Z) (n : nat) : M unit :=
  match n with
  | O => mret tt
  | S n => store a 0;; memset0 (a + 8) n
  end.

(** The while loop of tommy_hashtable_search (tommyhashtbl.h:211-217),
    tommy_hashdyn_search (tommyhashdyn.h:227-233) and
    tommy_hashlin_search (tommyhashlin.h:276-282). *)
Fixpoint bucket_search (fuel : nat) (cmp : Z -> Z -> M Z) (cmp_arg hash i : Z) : M Z :=
  if decide (i = null) then mret 0 else
  match fuel with
  | O => fuel_out
  | S fuel =>
      index ← load (f_index i);
      found ← (if decide (index = hash) then
                 data ← load (f_data i);
                 r ← cmp cmp_arg data;
                 mret (bool_decide (r = 0))
               else mret false);
      if decide (found = true) then load (f_data i) else
      i' ← load (f_next i);
      bucket_search fuel cmp cmp_arg hash i'
  end.

(** The while loop of tommy_hashtable_remove (tommyhashtbl.c:88-100),
    tommy_hashdyn_remove (tommyhashdyn.c:168-182) and
    tommy_hashlin_remove (tommyhashlin.c:274-288).  [found node] is the body
    of the if, which ends with a return; [notfound] is the final return. *)
Fixpoint bucket_remove {R} (fuel : nat) (cmp : Z -> Z -> M Z) (cmp_arg hash node : Z)
    (found : Z -> M R) (notfound : M R) : M R :=
  if decide (node = null) then notfound else
  match fuel with
  | O => fuel_out
  | S fuel =>
      index ← load (f_index node);
      ok ← (if decide (index = hash) then
              data ← load (f_data node);
              r ← cmp cmp_arg data;
              mret (bool_decide (r = 0))
            else mret false);
      if decide (ok = true) then found node else
      node' ← load (f_next node);
      bucket_remove fuel cmp cmp_arg hash node' found notfound
  end.

(** The for loop of tommy_hashtable_foreach (tommyhashtbl.c:109-117),
    tommy_hashdyn_foreach (tommyhashdyn.c:191-199) and
    tommy_hashlin_foreach (tommyhashlin.c:299-307), and of the _arg versions.
    [n] is the number of buckets still to visit, [ref pos] the address of the
    bucket at [pos].  The inner while loop is the one of tommy_list_foreach. *)
Fixpoint buckets_foreach (fuel n : nat) (pos : Z) (ref : Z -> M Z) (func : Z -> M unit) : M unit :=
  match n with
  | O => mret tt
  | S n =>
      b ← ref pos;
      node ← load b;
      list_foreach_loop fuel node func;;
      buckets_foreach fuel n (wrap (pos + 1)) ref func
  end.
